(** Property C125: the windows of the level-variance loop in binary64 and in exact arithmetic. *)
From Coq Require Import List ZArith Bool Reals Lra Lia Arith.
From Coq Require Import Floats.SpecFloat.
From Flocq Require Import Core BinarySingleNaN.
From Verif Require Import Base S_Order S_EigVals S_Trim M_Step M_Quad M_Loops S_Loops P_Order P_Step P_Float P_FloatGrid T_FloatDraw P_FloatMean T_FloatMean.
Import ListNotations.
Local Open Scope R_scope.
Local Notation length := List.length.
#[local] Existing Instance Hprec.
#[local] Existing Instance Hmax.
Local Notation OK x := (Valid x /\ Fin x).
Local Notation u := (bpow radix2 (-53)).

(** How far the computed ends of a window may be from c - L/2 and c + L/2. *)
Definition Slack (c L : R) : R := bpow radix2 (-52) * (Rabs c + Rabs L) + bpow radix2 (-1074).

Lemma count_mono (x : list R) a b a' b' : a' <= a -> b <= b' -> (CountIn x a b <= CountIn x a' b')%nat.
Proof.
  intros Ha Hb. induction x as [|y x IH]; cbn [CountIn]; [lia|].
  destruct (Rle_dec a y), (Rle_dec y b), (Rle_dec a' y), (Rle_dec y b'); try lia; exfalso; lra.
Qed.
Lemma FWindow_CountIn (x : list b64) L c (h := ndiv L (nofZ 2)) : List.Forall (fun y => OK y) x -> OK (nsub c h) -> OK (nadd c h) ->
  FWindow x L c = Z.of_nat (CountIn (map val x) (val (nsub c h)) (val (nadd c h))).
Proof.
  intros Hx (Va & Fa) (Vb & Fb). unfold FWindow. cbv zeta. fold h. f_equal. induction Hx as [|y x (Vy & Fy) _ IH]; [reflexivity|].
  cbn [filter map CountIn]. pose proof (leb_spec _ _ Va Vy Fa Fy) as A. pose proof (leb_spec _ _ Vy Vb Fy Fb) as B.
  destruct (Rle_dec (val (nsub c h)) (val y)) as [p|p], (Rle_dec (val y) (val (nadd c h))) as [q|q];
    destruct (SFleb (nsub c h) y) eqn:E1; destruct (SFleb y (nadd c h)) eqn:E2; cbn [andb length]; rewrite ?IH; try reflexivity; exfalso; intuition congruence.
Qed.
Lemma ends_ok (c L : b64) : OK c -> OK L -> Rabs (val c) <= bpow radix2 1000 -> Rabs (val L) <= bpow radix2 1000 ->
  let h := @ndiv b64 Num_b64 L (nofZ 2) in OK (nsub c h) /\ OK (nadd c h) /\
  Rabs (val (nsub c h) - (val c - val L / 2)) <= Slack (val c) (val L) /\ Rabs (val (nadd c h) - (val c + val L / 2)) <= Slack (val c) (val L).
Proof.
  intros Oc OL Hc HL h. pose proof (Rabs_pos (val c)) as P1. pose proof (Rabs_pos (val L)) as P2.
  assert (B10 : 8 * bpow radix2 1000 <= bpow radix2 1010). { change 8 with (bpow radix2 3). rewrite <- bpow_plus. apply bpow_le. lia. }
  pose proof (bpow_gt_0 radix2 1000) as B0.
  assert (U : 0 < u <= / 1024). { split; [apply bpow_gt_0|]. change (/ 1024) with (bpow radix2 (-10)). apply bpow_le. lia. }
  assert (T : 0 <= bpow radix2 (-1075)) by apply bpow_ge_0.
  assert (T1 : bpow radix2 (-1074) = 2 * bpow radix2 (-1075)). { change (-1074)%Z with (1 + -1075)%Z. rewrite bpow_plus. reflexivity. }
  assert (T2 : bpow radix2 (-1075) <= bpow radix2 1000 / 4). { replace (bpow radix2 1000 / 4) with (bpow radix2 998); [apply bpow_le; lia|]. change 1000%Z with (2 + 998)%Z. rewrite bpow_plus. change (bpow radix2 2) with 4. field. }
  assert (D52 : bpow radix2 (-52) = 2 * u). { change (-52)%Z with (1 + -53)%Z. rewrite bpow_plus. reflexivity. }
  assert (AL : Rabs (val L / 2) = Rabs (val L) / 2). { unfold Rdiv. rewrite Rabs_mult, (Rabs_right (/ 2)) by lra. reflexivity. }
  destruct (div_err L 2 OL ltac:(lia)) as (Oh & Eh). { rewrite AL. lra. }
  change (IZR 2) with 2 in Eh. rewrite AL in Eh. change (SFdiv b64_prec b64_emax L (b64_ofZ 2)) with h in *.
  set (tiny := bpow radix2 (-1075)) in *. set (ac := Rabs (val c)) in *. set (al := Rabs (val L)) in *. set (M := bpow radix2 1000) in *.
  assert (Hh : Rabs (val h) <= al / 2 + u * (al / 2) + tiny).
  { replace (val h) with ((val h - val L / 2) + val L / 2) by ring. eapply Rle_trans; [apply Rabs_triang|]. rewrite AL. fold al. lra. }
  assert (S1 : Rabs (val c - val h) <= ac + Rabs (val h)). { unfold Rminus. eapply Rle_trans; [apply Rabs_triang|]. rewrite Rabs_Ropp. unfold ac. lra. }
  assert (S2 : Rabs (val c + val h) <= ac + Rabs (val h)). { eapply Rle_trans; [apply Rabs_triang|]. unfold ac. lra. }
  assert (Bnd : ac + Rabs (val h) <= bpow radix2 1010) by nra.
  destruct (sub_err c h Oc Oh ltac:(lra)) as (Os & Es). destruct (add_err c h Oc Oh ltac:(lra)) as (Oa & Ea).
  split; [exact Os|]. split; [exact Oa|].
  assert (Fin : u * (ac + Rabs (val h)) + (u * (al / 2) + tiny) <= Slack (val c) (val L)).
  { unfold Slack. rewrite D52, T1. fold ac al. fold tiny.
    assert (u * Rabs (val h) <= u * (al / 2 + u * (al / 2) + tiny)) by (apply Rmult_le_compat_l; lra).
    assert (u * (u * (al / 2)) <= / 1024 * (u * (al / 2))) by (apply Rmult_le_compat_r; [apply Rmult_le_pos; lra|lra]).
    assert (0 <= u * al) by (apply Rmult_le_pos; lra). assert (u * tiny <= / 1024 * tiny) by (apply Rmult_le_compat_r; lra).
    assert (0 <= u * ac) by (apply Rmult_le_pos; lra). lra. }
  split.
  - change (@nsub b64 Num_b64 c h) with (SFsub b64_prec b64_emax c h).
    replace (val (SFsub b64_prec b64_emax c h) - (val c - val L / 2)) with ((val (SFsub b64_prec b64_emax c h) - (val c - val h)) - (val h - val L / 2)) by ring.
    eapply Rle_trans; [apply Rabs_triang|]. rewrite Rabs_Ropp. eapply Rle_trans; [apply Rplus_le_compat; [exact Es|exact Eh]|].
    eapply Rle_trans; [|exact Fin]. apply Rplus_le_compat_r. apply Rmult_le_compat_l; lra.
  - change (@nadd b64 Num_b64 c h) with (SFadd b64_prec b64_emax c h).
    replace (val (SFadd b64_prec b64_emax c h) - (val c + val L / 2)) with ((val (SFadd b64_prec b64_emax c h) - (val c + val h)) + (val h - val L / 2)) by ring.
    eapply Rle_trans; [apply Rabs_triang|]. eapply Rle_trans; [apply Rplus_le_compat; [exact Ea|exact Eh]|].
    eapply Rle_trans; [|exact Fin]. apply Rplus_le_compat_r. apply Rmult_le_compat_l; lra.
Qed.

(** C125. The number of levels counted in a window in binary64 lies between the exact numbers for the window shortened and lengthened by
    2^-52 (|c| + |L|) + 2^-1074 at either end; it is the exact number when no level is that near to an end. *)
Theorem C125_counts : forall (x : list b64) L c, List.Forall (fun y => valid_binary b64_prec b64_emax y = true /\ is_finite_SF y = true) x ->
  valid_binary b64_prec b64_emax c = true -> is_finite_SF c = true -> valid_binary b64_prec b64_emax L = true -> is_finite_SF L = true ->
  Rabs (SF2R radix2 c) <= bpow radix2 1000 -> Rabs (SF2R radix2 L) <= bpow radix2 1000 ->
  let lo := SF2R radix2 c - SF2R radix2 L / 2 in let hi := SF2R radix2 c + SF2R radix2 L / 2 in let e := Slack (SF2R radix2 c) (SF2R radix2 L) in
  let levels := map (SF2R radix2) x in
  (Z.of_nat (CountIn levels (lo + e) (hi - e)) <= n_within x L c <= Z.of_nat (CountIn levels (lo - e) (hi + e)))%Z /\
  ((forall y, In y levels -> e < Rabs (y - lo) /\ e < Rabs (y - hi)) -> n_within x L c = Z.of_nat (CountIn levels lo hi)).
Proof.
  intros x L c Hx Vc Fc VL FL Hc HL lo hi e levels. destruct (ends_ok c L (conj Vc Fc) (conj VL FL) Hc HL) as (Oa & Ob & Ea & Eb). fold lo hi e in Ea, Eb.
  rewrite n_within_F, (FWindow_CountIn x L c Hx Oa Ob). fold levels. apply Rabs_le_inv in Ea. apply Rabs_le_inv in Eb.
  match goal with |- context [CountIn levels ?p ?q] => match p with val _ => change (- e <= p - lo <= e) in Ea; change (- e <= q - hi <= e) in Eb; generalize dependent p; generalize dependent q end end.
  intros b Eb a Ea. split.
  - split; apply inj_le; apply count_mono; lra.
  - intros Hn. f_equal. revert Hn. generalize levels. induction levels0 as [|y l IH]; intros Hn; [reflexivity|]. cbn [CountIn]. rewrite IH by (intros; apply Hn; now right).
    f_equal. destruct (Hn y (or_introl eq_refl)) as (N1 & N2).
    destruct (Rle_dec a y), (Rle_dec y b), (Rle_dec lo y), (Rle_dec y hi); try reflexivity; exfalso;
      unfold Rabs in N1, N2; destruct (Rcase_abs (y - lo)), (Rcase_abs (y - hi)); lra.
Qed.
Print Assumptions C125_counts.

(** C125. For 1 to 2^26 finite levels of magnitude at most 2^900 and random numbers in [0, 1 - 2^-53], the level variance computed in binary64
    is within 2^-46 times the square of the number of levels of the exact population variance of the exact window counts about the drawn
    centres, provided no level is within the rounding error of an end of one of the windows. *)
Theorem C125_level_variance : forall (x : list b64) L mx tol mn draws, (1 <= Z.of_nat (length x) <= 2 ^ 26)%Z -> (mx <= 2 ^ 50)%Z ->
  List.Forall (fun y => valid_binary b64_prec b64_emax y = true /\ is_finite_SF y = true /\ Rabs (SF2R radix2 y) <= bpow radix2 900) x ->
  valid_binary b64_prec b64_emax L = true -> is_finite_SF L = true -> Rabs (SF2R radix2 L) <= bpow radix2 900 ->
  (forall i, valid_binary b64_prec b64_emax (draws i) = true /\ is_finite_SF (draws i) = true /\ 0 <= SF2R radix2 (draws i) <= 1 - bpow radix2 (-53)) ->
  exists lo hi s conv k, In lo x /\ In hi x /\ (forall y, In y x -> SF2R radix2 lo <= SF2R radix2 y <= SF2R radix2 hi) /\
    sigma_L x L mx tol mn draws = Ok (Done (s, conv, Z.of_nat k)) /\ (1 <= k)%nat /\
    let c i := SF2R radix2 (uniform lo hi (draws i)) in let levels := map (SF2R radix2) x in let l := SF2R radix2 L in
    (forall i, SF2R radix2 lo <= c i <= SF2R radix2 hi) /\
    ((forall i y, (1 <= i <= k)%nat -> In y levels -> Slack (c i) l < Rabs (y - (c i - l / 2)) /\ Slack (c i) l < Rabs (y - (c i + l / 2))) ->
     Rabs (SF2R radix2 s - PopVar (map (fun i => INR (CountIn levels (c i - l / 2) (c i + l / 2))) (seq 1 k))) <= bpow radix2 (-46) * (INR (length x) * INR (length x))).
Proof.
  intros x L mx tol mn draws Hx Hmx Hall VL FL HL Hd. rewrite List.Forall_forall in Hall.
  assert (Hnan : List.Forall NotNaN x). { apply List.Forall_forall. intros y Hy. apply fin_notnan. now apply Hall. }
  destruct (C112_level_variance x L mx tol mn draws Hx Hnan Hmx) as (lo & hi & s & conv & k & Ilo & Ihi & Hle & Hrun & Hk & Fs & Err).
  destruct (Hall lo Ilo) as (V1 & F1 & M1). destruct (Hall hi Ihi) as (V2 & F2 & M2).
  assert (B1 : 2 * bpow radix2 900 <= bpow radix2 1010). { change 2 with (bpow radix2 1). rewrite <- bpow_plus. apply bpow_le. lia. }
  assert (B2 : bpow radix2 900 <= bpow radix2 1000) by (apply bpow_le; lia).
  assert (Dok : is_finite_SF (SFsub b64_prec b64_emax hi lo) = true).
  { apply (sub_err hi lo (conj V2 F2) (conj V1 F1)). apply Rabs_le_inv in M1. apply Rabs_le_inv in M2. apply Rabs_le. lra. }
  assert (Lv : val lo <= val hi). { apply (leb_spec lo hi V1 V2 F1 F2). apply (Hle hi Ihi). }
  assert (C : forall i, Valid (uniform lo hi (draws i)) /\ Fin (uniform lo hi (draws i)) /\ val lo <= val (uniform lo hi (draws i)) <= val hi).
  { intros i. destruct (Hd i) as (V3 & F3 & Hw). destruct (C110_centre lo hi (draws i) V1 V2 V3 F1 F2 F3 Lv Hw Dok) as (Fc & Hc & _).
    split; [|now split]. unfold uniform. change (@nadd b64 Num_b64) with (SFadd b64_prec b64_emax).
    change (@nmul b64 Num_b64) with (SFmul b64_prec b64_emax). change (@nsub b64 Num_b64) with (SFsub b64_prec b64_emax).
    destruct (sub_spec hi lo V2 V1 F2 F1) as (Vd & S & O). destruct (S (O Dok)) as (Fd & Ed).
    assert (Vm : Valid (SFmul b64_prec b64_emax (SFsub b64_prec b64_emax hi lo) (draws i)) /\ Fin (SFmul b64_prec b64_emax (SFsub b64_prec b64_emax hi lo) (draws i))).
    { destruct (mul_spec (SFsub b64_prec b64_emax hi lo) (draws i) Vd V3 Fd F3) as (A & B & _); [|now split].
      rewrite Ed. pose proof (product_below _ _ _ (valid_fmt lo V1) (valid_fmt hi V2) Lv Hw) as (P0 & P1). rewrite Rabs_pos_eq by exact P0.
      eapply Rle_lt_trans; [exact P1|]. apply Rabs_le_inv in M1. apply Rabs_le_inv in M2.
      apply Rle_lt_trans with (bpow radix2 1010); [lra|]. apply bpow_lt. lia. }
    now apply (add_spec lo _ V1 (proj1 Vm) F1 (proj2 Vm)). }
  exists lo, hi, s, conv, k. split; [exact Ilo|]. split; [exact Ihi|]. split.
  { intros y Hy. destruct (Hall y Hy) as (V & F & _). split; [apply (leb_spec lo y V1 V F1 F)|apply (leb_spec y hi V V2 F F2)]; now apply Hle. }
  split; [exact Hrun|]. split; [exact Hk|]. intros c levels l. split; [intros i; apply C|]. intros Hfar. match type of Err with Rabs (_ - PopVar ?a) <= _ => match goal with |- Rabs (_ - PopVar ?b) <= _ => replace b with a; [exact Err|] end end.
  apply map_ext_in. intros i Hi. apply in_seq in Hi. rewrite <- n_within_F, INR_IZR_INZ. f_equal.
  destruct (C i) as (Vc & Fc & Hc). apply Rabs_le_inv in M1. apply Rabs_le_inv in M2.
  apply C125_counts; auto.
  - apply List.Forall_forall. intros y Hy. destruct (Hall y Hy) as (A & B & _). now split.
  - apply Rabs_le. lra.
  - lra.
  - intros y Hy. apply Hfar; [lia|exact Hy].
Qed.
Print Assumptions C125_level_variance.

(** Rounding can change a count: about c = 1 + 2^-52 with L = 2^-52 the exact upper end 1 + 3 * 2^-53 rounds up to 1 + 2^-51, so a level
    there is counted although it lies outside the window. *)
Theorem C125_tie_refuted : let c := S754_finite false (2 ^ 52 + 1) (-52) in let L := S754_finite false (2 ^ 52) (-104) in let y := S754_finite false (2 ^ 52 + 2) (-52) in
  n_within [y] L c = 1%Z /\ CountIn (map (SF2R radix2) [y]) (SF2R radix2 c - SF2R radix2 L / 2) (SF2R radix2 c + SF2R radix2 L / 2) = 0%nat.
Proof.
  cbv zeta. split; [vm_compute; reflexivity|]. cbn [map CountIn].
  assert (P : 0 < bpow radix2 (-52)) by apply bpow_gt_0.
  assert (L : SF2R radix2 (S754_finite false (2 ^ 52) (-104)) = bpow radix2 (-52)).
  { cbn [SF2R cond_Zopp]. unfold F2R. cbn [Fnum Fexp]. change (-104)%Z with (-52 + -52)%Z. rewrite bpow_plus, <- Rmult_assoc.
    change (IZR (Z.pos (2 ^ 52))) with (bpow radix2 52). rewrite <- bpow_plus. change (bpow radix2 (52 + -52)) with 1. ring. }
  rewrite L. cbn [SF2R cond_Zopp]. unfold F2R. cbn [Fnum Fexp]. set (b := bpow radix2 (-52)) in *.
  destruct (Rle_dec _ _) as [p|p]; [|reflexivity]. destruct (Rle_dec _ _) as [q|q]; [|reflexivity]. exfalso.
  change (IZR (Z.pos (2 ^ 52 + 2))) with (IZR (Z.pos (2 ^ 52 + 1) + 1)) in q. rewrite plus_IZR in q. lra.
Qed.
Print Assumptions C125_tie_refuted.
(** Three levels, L = 2, draws 1/4 and 1/2: windows [-1/4, 7/4] and [1/2, 5/2] with 2 and 1 levels; the computed variance is 1/4. *)
Example C125_case : let z := b64_ofZ in let draws j := match j with O => z 0%Z | S O => S754_finite false 4503599627370496 (-54) | _ => S754_finite false 4503599627370496 (-53) end in
  sigma_L [z 0; z 1; z 3]%Z (z 2%Z) 2 (z 1%Z) 0 draws = Ok (Done (S754_finite false 4503599627370496 (-54), true, 2%Z)) /\
  uniform (z 0%Z) (z 3%Z) (draws 1%nat) = S754_finite false 6755399441055744 (-53) /\ uniform (z 0%Z) (z 3%Z) (draws 2%nat) = S754_finite false 6755399441055744 (-52) /\
  n_within [z 0; z 1; z 3]%Z (z 2%Z) (uniform (z 0%Z) (z 3%Z) (draws 1%nat)) = 2%Z /\ n_within [z 0; z 1; z 3]%Z (z 2%Z) (uniform (z 0%Z) (z 3%Z) (draws 2%nat)) = 1%Z /\
  Slack (3 / 2) 2 < 1 / 4.
Proof.
  split; [vm_compute; reflexivity|]. split; [vm_compute; reflexivity|]. split; [vm_compute; reflexivity|]. split; [vm_compute; reflexivity|]. split; [vm_compute; reflexivity|].
  unfold Slack. rewrite !Rabs_right by lra. assert (bpow radix2 (-52) <= / 1024). { change (/ 1024) with (bpow radix2 (-10)). apply bpow_le. lia. }
  assert (bpow radix2 (-1074) <= / 1024). { change (/ 1024) with (bpow radix2 (-10)). apply bpow_le. lia. } lra.
Qed.
