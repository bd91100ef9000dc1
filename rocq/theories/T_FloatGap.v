(** Property C111: spacings in binary64. *)
From Coq Require Import List ZArith Bool Reals Lra Lia Arith.
From Coq Require Import Floats.SpecFloat.
From Flocq Require Import Core BinarySingleNaN Relative.
From Verif Require Import Base S_Order M_EigVals P_Order P_EigVals P_Float P_FloatGrid T_FloatDraw.
Import ListNotations.
Local Open Scope R_scope.
#[local] Existing Instance Hprec.
#[local] Existing Instance Hmax.
Local Notation subf := (SFsub b64_prec b64_emax).
Local Notation big := (bpow radix2 1024).

(** A difference of floats that is not zero is at least 2^-1074, and so is its rounding. *)
Lemma rnd_sub_zero x y : fmt x -> fmt y -> y <= x -> (rnd (x - y) = 0 <-> x = y) /\ 0 <= rnd (x - y).
Proof.
  intros Fx Fy H. assert (P : 0 <= rnd (x - y)) by (rewrite <- (rnd_fmt 0) by apply generic_format_0; apply rnd_le; lra). split; [|exact P].
  split; [|intros ->; replace (y - y) with 0 by ring; apply rnd_fmt, generic_format_0]. intros E. apply fmt_FIX in Fx as (k & Ex). apply fmt_FIX in Fy as (l & Ey).
  pose proof (bpow_gt_0 radix2 (-1074)) as B. destruct (Z_lt_le_dec l k) as [L|L].
  - assert (bpow radix2 (-1074) <= x - y).
    { rewrite Ex, Ey, <- Rmult_minus_distr_r, <- minus_IZR. assert (1 <= IZR (k - l)) by (apply IZR_le; lia). nra. }
    assert (bpow radix2 (-1074) <= rnd (x - y)); [|lra]. rewrite <- (rnd_fmt (bpow radix2 (-1074))) at 1 by (apply fmt_bpow; lia). now apply rnd_le.
  - apply IZR_le in L. nra.
Qed.
(** Rounding error of a difference: relative 2^-53 (exact in the subnormal range). *)
Lemma rnd_sub_err x y : fmt x -> fmt y -> y <= x -> Rabs (rnd (x - y) - (x - y)) <= bpow radix2 (-53) * (x - y).
Proof.
  intros Fx Fy H. pose proof (bpow_gt_0 radix2 (-53)). destruct (Rle_or_lt (x - y) (bpow radix2 (-1021))) as [L|L].
  - rewrite rnd_fmt by (apply sub_exact; auto; rewrite Rabs_pos_eq; lra). replace (x - y - (x - y)) with 0 by ring. rewrite Rabs_R0. nra.
  - pose proof (bpow_lt radix2 (-1022) (-1021) ltac:(lia)). pose proof (rnd_rel (x - y) ltac:(lra)). apply Rabs_le. lra.
Qed.
Lemma sign_val x (V : Valid x) : Fin x -> (Bsign (SF2B x V) = true -> val x <= 0) /\ (Bsign (SF2B x V) = false -> 0 <= val x).
Proof.
  intros F. destruct x as [s|s| |s m e]; cbn in *; try discriminate; [split; lra|]. split; intros ->; [apply F2R_le_0|apply F2R_ge_0]; cbn; lia.
Qed.
Lemma sub_overflow x y : Valid x -> Valid y -> Fin x -> Fin y -> val y <= val x -> ~ Rabs (rnd (val x - val y)) < big ->
  subf x y = S754_infinity false.
Proof.
  intros Vx Vy Fx Fy Hle H. pose proof (sub_equiv (SF2B x Vx) (SF2B y Vy)) as E. rewrite !B2SF_SF2B in E. rewrite E.
  pose proof (Bminus_correct b64_prec b64_emax _ _ mode_NE (SF2B x Vx) (SF2B y Vy)) as C.
  rewrite !is_finite_SF2B in C. specialize (C Fx Fy). rewrite !B2R_SF2B in C.
  change (round radix2 (SpecFloat.fexp b64_prec b64_emax) (round_mode mode_NE)) with rnd in C.
  rewrite Rlt_bool_false in C by (apply Rnot_lt_le; exact H). destruct C as (C1 & C2). rewrite C1.
  assert (Sg : Bsign (SF2B x Vx) = false); [|rewrite Sg; reflexivity]. destruct (Bsign (SF2B x Vx)) eqn:Sx; [exfalso|reflexivity].
  assert (Sy : Bsign (SF2B y Vy) = false) by (destruct (Bsign (SF2B y Vy)); [discriminate|reflexivity]).
  pose proof (proj1 (sign_val x Vx Fx) Sx). pose proof (proj2 (sign_val y Vy Fy) Sy). apply H. replace (val x - val y) with 0 by lra.
  rewrite rnd_fmt by apply generic_format_0. rewrite Rabs_R0. apply bpow_gt_0.
Qed.
Lemma ndiff_nth_error {F} {N : Num F} (l : list F) : forall i a b, nth_error l i = Some a -> nth_error l (S i) = Some b -> nth_error (ndiff l) i = Some (nsub b a).
Proof.
  induction l as [|x [|y l] IH]; intros [|i] a b H1 H2; cbn in H1, H2; try discriminate; try (destruct i; discriminate).
  - injection H1 as <-. injection H2 as <-. reflexivity.
  - exact (IH i a b H1 H2).
Qed.

(** C111. The spacings of a finite binary64 spectrum: each is computed from two neighbouring values a <= b of the sorted spectrum;
    it is not NaN and not negative; it is zero exactly when a and b are equal; unless it overflows to infinity its relative error is at
    most 2^-53. *)
Theorem C111_spacings : forall (values : list b64),
  List.Forall (fun x => valid_binary b64_prec b64_emax x = true /\ is_finite_SF x = true) values ->
  length (spacings values) = (length values - 1)%nat /\
  forall i a b, nth_error (np_sort values) i = Some a -> nth_error (np_sort values) (S i) = Some b ->
  exists s, nth_error (spacings values) i = Some s /\ NotNaN s /\ Le n0 s /\ (neq s n0 = true <-> SF2R radix2 a = SF2R radix2 b) /\
    (is_finite_SF s = true -> Rabs (SF2R radix2 s - (SF2R radix2 b - SF2R radix2 a)) <= bpow radix2 (-53) * (SF2R radix2 b - SF2R radix2 a)) /\
    (is_finite_SF s = false -> s = S754_infinity false /\ bpow radix2 1023 <= SF2R radix2 b - SF2R radix2 a).
Proof.
  intros values Hv. split; [unfold spacings; now rewrite ndiff_length, np_sort_length|]. intros i a b Ha Hb.
  exists (subf b a). split; [exact (ndiff_nth_error _ i a b Ha Hb)|].
  assert (Hs : List.Forall (fun x => Valid x /\ Fin x) (np_sort values)) by (eapply Permutation.Permutation_Forall; [apply np_sort_perm|exact Hv]).
  rewrite List.Forall_forall in Hs. destruct (Hs a) as (Va & Fa); [eapply nth_error_In; exact Ha|]. destruct (Hs b) as (Vb & Fb); [eapply nth_error_In; exact Hb|].
  assert (Hle : val a <= val b).
  { apply (leb_spec a b Va Vb Fa Fb). assert (A : Ascending (np_sort values)).
    { apply np_sort_ascending. eapply List.Forall_impl; [|exact Hv]. intros x (_ & F). now apply fin_notnan. }
    clear - A Ha Hb. revert i Ha Hb. induction A as [|x l A IH Hx]; intros [|i] Ha Hb; cbn in Ha, Hb; try discriminate.
    - injection Ha as ->. rewrite List.Forall_forall in Hx. apply (Hx b). exact (nth_error_In l 0 Hb).
    - exact (IH i Ha Hb). }
  pose proof (rnd_sub_zero (val b) (val a) (valid_fmt b Vb) (valid_fmt a Va) Hle) as (Z & P).
  pose proof (rnd_sub_err (val b) (val a) (valid_fmt b Vb) (valid_fmt a Va) Hle) as Er.
  destruct (sub_spec b a Vb Va Fb Fa) as (Vs & S1 & S2).
  destruct (Rlt_dec (Rabs (rnd (val b - val a))) big) as [H|H].
  - destruct (S1 H) as (Fs & Es). split; [now apply fin_notnan|].
    assert (V0 : Valid (S754_zero false)) by reflexivity. assert (F0 : Fin (S754_zero false)) by reflexivity.
    split; [apply (leb_spec (S754_zero false) (subf b a) V0 Vs F0 Fs); rewrite Es; exact P|]. split.
    + pose proof (leb_spec (S754_zero false) (subf b a) V0 Vs F0 Fs) as L1. pose proof (leb_spec (subf b a) (S754_zero false) Vs V0 Fs F0) as L2.
      change (val (S754_zero false)) with 0 in L1, L2. rewrite Es in L1, L2.
      pose proof (ol_eq (subf b a : b64) (S754_zero false) (fin_notnan _ Fs) (fin_notnan _ F0)) as Q. change (neq (subf b a) n0) with (@neq b64 Num_b64 (subf b a) (S754_zero false)).
      rewrite Q. change (@nle b64 Num_b64) with SFleb. rewrite andb_true_iff, L1, L2. split; [intros (A & B); symmetry; apply Z; lra|]. intros E. assert (rnd (val b - val a) = 0) by (apply Z; lra). lra.
    + split; [intros _; rewrite Es; exact Er|]. intros K. congruence.
  - rewrite (sub_overflow b a Vb Va Fb Fa Hle H). split; [reflexivity|]. split; [reflexivity|]. split.
    + split; [discriminate|]. intros E. exfalso. apply H. replace (val b - val a) with 0 by lra. rewrite rnd_fmt by apply generic_format_0. rewrite Rabs_R0. apply bpow_gt_0.
    + split; [discriminate|]. intros _. split; [reflexivity|]. destruct (Rle_or_lt (bpow radix2 1023) (val b - val a)) as [K|K]; [exact K|]. exfalso. apply H.
      apply (lt_big _ 1023); [lia|]. rewrite Rabs_pos_eq; lra.
Qed.
Print Assumptions C111_spacings.
(** 0.3, 0.1, 0.3 and 2^-1074: gaps 0.1 - 2^-1074 (rounded to 0.1), 0.19999999999999998 and 0; the two ends of the range overflow. *)
Example C111_case :
  spacings [S754_finite false 5404319552844595 (-54); S754_finite false 7205759403792794 (-56); S754_finite false 5404319552844595 (-54); S754_finite false 1 (-1074)] =
    [S754_finite false 7205759403792794 (-56); S754_finite false 7205759403792793 (-55); S754_zero false] /\
  spacings [S754_finite false (2 ^ 53 - 1) 971; S754_finite true (2 ^ 53 - 1) 971] = [S754_infinity false].
Proof. vm_compute. split; reflexivity. Qed.
