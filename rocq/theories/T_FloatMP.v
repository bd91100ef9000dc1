(** Property C145: Marchenko-Pastur trimming in double precision. *)
From Coq Require Import List ZArith Bool Reals Lra Lia Arith Permutation Sorted.
From Coq Require Import Floats.SpecFloat.
From Flocq Require Import Core BinarySingleNaN Relative.
From Verif Require Import Base S_Order S_Series M_EigVals M_Series P_Order P_EigVals P_TrimStat P_Series P_Float P_FloatGrid T_FloatGap P_FloatMean P_FloatSqrt.
Import ListNotations.
Local Open Scope R_scope.

(** What the method selects, given the two ends of the bulk: the signal above it, or the noise strictly inside. *)
Definition MPPicks (largest : bool) (lo hi x : R) : Prop := if largest then hi < x else lo < x < hi.

Lemma filter_keeps_in {A} (P : A -> Prop) (f : A -> bool) l : (forall x, In x l -> (f x = true <-> P x)) -> Keeps P l (filter f l).
Proof.
  induction l as [|x l IH]; intros H; [constructor|]. cbn [filter]. assert (K : Keeps P l (filter f l)) by (apply IH; intros; apply H; now right).
  pose proof (H x (or_introl eq_refl)) as Hx. destruct (f x); [constructor; [now apply Hx|exact K]|]. apply Keeps_no; [|exact K]. intros C. apply Hx in C. discriminate.
Qed.

(** The end points are computed with an error of at most 2^-49 of the size of the upper one (times one plus the relative size of the
    largest eigenvalue when the shift is used), and what is returned is, in ascending order, exactly the values beyond the computed ends:
    the exact answer whenever no value lies within that distance of an exact end. *)
Theorem C145_double_precision : forall (vals : list b64) n t selfN selfT nser len largest shifted,
  vals <> [] -> Forall (fun v => Valid v /\ Fin v /\ Rabs (val v) <= bpow radix2 900) vals ->
  (1 <= n <= 2 ^ 50)%Z -> (1 <= t <= 2 ^ 50)%Z ->
  (match nser with Some x => Some x | None => selfN end) = Some n -> (match len with Some x => Some x | None => selfT end) = Some t ->
  exists kept lo hi emax,
    trim_marchenko_pastur b64_sqrt vals selfN selfT nser len largest shifted = Ok (kept, (lo, hi)) /\
    Largest (map (SF2R radix2) vals) emax /\
    let s := if shifted then 1 - emax / IZR n else 1 in
    let tol := bpow radix2 (-49) * ((if shifted then 1 + Rabs (emax / IZR n) else 1) * MPUpper 1 n t) in
    (Valid lo /\ Fin lo /\ Rabs (val lo - MPLower s n t) <= tol) /\
    (Valid hi /\ Fin hi /\ Rabs (val hi - MPUpper s n t) <= tol) /\
    StronglySorted Rle (map (SF2R radix2) kept) /\
    exists left, Permutation kept left /\ Keeps (fun v => MPPicks largest (val lo) (val hi) (val v)) vals left /\
      (Forall (fun v => tol < Rabs (val v - MPLower s n t) /\ tol < Rabs (val v - MPUpper s n t)) vals ->
       Keeps (fun v => MPPicks largest (MPLower s n t) (MPUpper s n t) (val v)) vals left).
Proof.
  intros vals n t selfN selfT nser len largest shifted Hne Hv Hn Ht En Et.
  assert (HOK : Forall (fun v => Valid v /\ Fin v) vals) by (eapply Forall_impl; [|exact Hv]; cbv beta; tauto).
  destruct (arr_max_val vals Hne HOK) as (m & Em & Om & Im & ER).
  assert (Hm : Rabs (val m) <= bpow radix2 900) by (rewrite Forall_forall in Hv; now apply Hv).
  assert (HL : Largest (map (SF2R radix2) vals) (val m)).
  { destruct (arr_max_exists (map (SF2R radix2) vals)) as (x & Hx & Ex); [destruct vals; [congruence|discriminate]|]. rewrite ER in Ex. now injection Ex as <-. }
  destruct (unshifted_ok n t Hn Ht) as (Ol & Oh & El & Eh).
  pose proof (r0_rng n t Hn Ht) as (R1 & R2). pose proof (H0_rng n t Hn Ht) as (Q1 & Q2). set (r0 := sqrt (IZR n / IZR t)) in *.
  assert (L1 : Rabs ((1 - r0) * (1 - r0)) <= (1 + r0) * (1 + r0)) by (rewrite Rabs_pos_eq by apply Rle_0_sqr; lra).
  assert (L2 : Rabs ((1 + r0) * (1 + r0)) <= (1 + r0) * (1 + r0)) by (rewrite Rabs_pos_eq by apply Rle_0_sqr; lra).
  destruct (scaled_ok n t Hn Ht m Om Hm _ _ Ol L1 El) as (Osl & Esl). destruct (scaled_ok n t Hn Ht m Om Hm _ _ Oh L2 Eh) as (Osh & Esh). fold r0 in Esl, Esh.
  assert (U16 : bpow radix2 (-49) = 16 * bpow radix2 (-53)) by (replace (-49)%Z with (4 + -53)%Z by lia; rewrite bpow_plus; reflexivity).
  pose proof u_rng as Hu.
  set (s := if shifted then 1 - val m / IZR n else 1). set (tol := bpow radix2 (-49) * ((if shifted then 1 + Rabs (val m / IZR n) else 1) * MPUpper 1 n t)).
  assert (exists lo hi, trim_marchenko_pastur b64_sqrt vals selfN selfT nser len largest shifted =
      Ok (np_sort (filter (fun v : b64 => if largest then SFltb hi v else SFltb lo v && SFltb v hi) vals), (lo, hi)) /\
      (Valid lo /\ Fin lo /\ Rabs (val lo - MPLower s n t) <= tol) /\ (Valid hi /\ Fin hi /\ Rabs (val hi - MPUpper s n t) <= tol)) as (lo & hi & E & Hlo & Hhi).
  { assert (En' : match nser with None => selfN | Some _ => nser end = Some n) by (destruct nser; exact En).
    assert (Et' : match len with None => selfT | Some _ => len end = Some t) by (destruct len; exact Et).
    unfold trim_marchenko_pastur. rewrite En', Et', Em. cbn [bind]. replace (t =? 0)%Z with false by (symmetry; apply Z.eqb_neq; lia).
    subst s tol. unfold MPLower, MPUpper. fold r0. destruct shifted.
    - exists (SFmul b64_prec b64_emax (SFsub b64_prec b64_emax (b64_ofZ 1) (SFdiv b64_prec b64_emax m (b64_ofZ n)))
          (SFmul b64_prec b64_emax (SFsub b64_prec b64_emax (b64_ofZ 1) (b64_sqrt (SFdiv b64_prec b64_emax (b64_ofZ n) (b64_ofZ t)))) (SFsub b64_prec b64_emax (b64_ofZ 1) (b64_sqrt (SFdiv b64_prec b64_emax (b64_ofZ n) (b64_ofZ t)))))),
        (SFmul b64_prec b64_emax (SFsub b64_prec b64_emax (b64_ofZ 1) (SFdiv b64_prec b64_emax m (b64_ofZ n)))
          (SFmul b64_prec b64_emax (SFadd b64_prec b64_emax (b64_ofZ 1) (b64_sqrt (SFdiv b64_prec b64_emax (b64_ofZ n) (b64_ofZ t)))) (SFadd b64_prec b64_emax (b64_ofZ 1) (b64_sqrt (SFdiv b64_prec b64_emax (b64_ofZ n) (b64_ofZ t)))))).
      split; [destruct largest; reflexivity|]. rewrite U16. repeat split; try apply Osl; try apply Osh; [refine (Rle_trans _ _ _ Esl _)|refine (Rle_trans _ _ _ Esh _)]; right; ring.
    - exists (SFmul b64_prec b64_emax (SFsub b64_prec b64_emax (b64_ofZ 1) (b64_sqrt (SFdiv b64_prec b64_emax (b64_ofZ n) (b64_ofZ t)))) (SFsub b64_prec b64_emax (b64_ofZ 1) (b64_sqrt (SFdiv b64_prec b64_emax (b64_ofZ n) (b64_ofZ t))))),
        (SFmul b64_prec b64_emax (SFadd b64_prec b64_emax (b64_ofZ 1) (b64_sqrt (SFdiv b64_prec b64_emax (b64_ofZ n) (b64_ofZ t)))) (SFadd b64_prec b64_emax (b64_ofZ 1) (b64_sqrt (SFdiv b64_prec b64_emax (b64_ofZ n) (b64_ofZ t))))).
      split; [destruct largest; reflexivity|]. rewrite U16. assert (0 <= bpow radix2 (-53) * ((1 + r0) * (1 + r0))) by (apply Rmult_le_pos; lra).
      repeat split; try apply Ol; try apply Oh; rewrite !Rmult_1_l; lra. }
  exists (np_sort (filter (fun v : b64 => if largest then SFltb hi v else SFltb lo v && SFltb v hi) vals)), lo, hi, (val m).
  split; [exact E|]. split; [exact HL|]. fold s. fold tol. cbv zeta. split; [exact Hlo|]. split; [exact Hhi|].
  destruct Hlo as (Vl & Fl & Dl). destruct Hhi as (Vh & Fh & Dh).
  set (left := filter (fun v : b64 => if largest then SFltb hi v else SFltb lo v && SFltb v hi) vals). assert (HF : Forall (fun v => Valid v /\ Fin v) left).
  { apply Forall_forall. intros v Hin. apply filter_In in Hin. rewrite Forall_forall in HOK. now apply HOK. }
  split. { rewrite sort_val by exact HF. apply StronglySorted_R. apply np_sort_ascending. apply notnan_R. }
  exists left. split; [symmetry; apply np_sort_perm|].
  assert (D : forall v, In v vals -> (if largest then SFltb hi v else SFltb lo v && SFltb v hi) = true <-> MPPicks largest (val lo) (val hi) (val v)).
  { intros v Hin. rewrite Forall_forall in HOK. destruct (HOK v Hin) as (Vv & Fv). unfold MPPicks. destruct largest; [now apply ltb_spec|].
    rewrite andb_true_iff, (ltb_spec lo v), (ltb_spec v hi) by assumption. reflexivity. }
  split; [now apply filter_keeps_in|]. intros Hsep. apply filter_keeps_in. intros v Hin. rewrite (D v Hin). rewrite Forall_forall in Hsep. destruct (Hsep v Hin) as (S1 & S2).
  clear - S1 S2 Dl Dh. apply Rabs_le_inv in Dl, Dh. unfold MPPicks. destruct largest; revert S1 S2; unfold Rabs; repeat destruct Rcase_abs; intros; lra.
Qed.
Print Assumptions C145_double_precision.

(** Within the tolerance the answer can differ.  N = 4 series of length T = 9: the upper end is exactly 25/9, and the double nearest to
    25/9, which is smaller than 25/9, is nevertheless returned as signal. *)
Theorem C145_edge_refuted : exists v lo hi, Valid v /\ Fin v /\ val v < MPUpper 1 4 9 /\
  trim_marchenko_pastur b64_sqrt [v] None None (Some 4%Z) (Some 9%Z) true false = Ok ([v], (lo, hi)).
Proof.
  exists (S754_finite false 6254999482459022 (-51)). eexists. eexists. split; [reflexivity|]. split; [reflexivity|]. split.
  - unfold MPUpper. replace (sqrt (4 / 9)) with (2 / 3) by (replace (4 / 9) with ((2 / 3) * (2 / 3)) by lra; rewrite sqrt_square; lra).
    cbn. unfold F2R. cbn. lra.
  - vm_compute. reflexivity.
Qed.
Print Assumptions C145_edge_refuted.

(** A case: N = 1, T = 4 (bulk 1/4 .. 9/4) with the values 1/16, 1, 2, 3 and the shift off. *)
Example C145_case :
  let vals := [S754_finite false 1 (-4); S754_finite false 3 0; S754_finite false 1 0; S754_finite false 1 1] in
  let norm v := SFmul b64_prec b64_emax (b64_ofZ 1) v in
  let vals' := map norm vals in
  Forall (fun v => Valid v /\ Fin v) vals' /\ map (SF2R radix2) vals' = [/ 16; 3; 1; 2] /\
  (exists lo hi, trim_marchenko_pastur b64_sqrt vals' (Some 1%Z) None None (Some 4%Z) false false = Ok ([norm (S754_finite false 1 0); norm (S754_finite false 1 1)], (lo, hi)) /\
    val lo = 1 / 4 /\ val hi = 9 / 4).
Proof.
  cbv zeta. split; [repeat constructor|]. split; [vm_compute map; unfold F2R; cbn; repeat f_equal; lra|].
  eexists. eexists. split; [vm_compute; reflexivity|]. split; cbn; unfold F2R; cbn; lra.
Qed.
