(** Property C124: the limit [max_trim] of the trimming loop in binary64. *)
From Coq Require Import List ZArith Bool Arith Lia Reals Lra Sorting.Sorted Sorting.Permutation.
From Coq Require Import Floats.SpecFloat.
From Flocq Require Import Core BinarySingleNaN.
From Verif Require Import Base S_Order S_EigVals S_Trim M_EigVals M_Trim P_Order P_Step P_EigVals P_Trim P_TrimStat P_TrimFull P_Float P_FloatGrid P_FloatMean T_Trim.
Import ListNotations.
Local Open Scope R_scope.
Local Notation length := List.length.
Local Notation val := (SF2R radix2).
Local Notation Valid x := (valid_binary b64_prec b64_emax x = true).
Local Notation Fin x := (is_finite_SF x = true).

Lemma ltb_spec x y : Valid x -> Valid y -> Fin x -> Fin y -> SFltb x y = true <-> val x < val y.
Proof.
  intros Vx Vy Fx Fy. pose proof (Bltb_correct b64_prec b64_emax (SF2B x Vx) (SF2B y Vy)) as C. rewrite !is_finite_SF2B in C.
  specialize (C Fx Fy). unfold Bltb in C. rewrite !B2SF_SF2B, !B2R_SF2B in C. rewrite C. case Rlt_bool_spec; intros H; split; intros; auto; [discriminate|lra].
Qed.

(** The computed share 1 - k/n is within 2^-52 of the exact one. *)
Lemma removed_err (k n : Z) : (0 <= k <= n)%Z -> (0 < n < 2 ^ 53)%Z ->
  let p := @nsub b64 Num_b64 n1 (ndiv (nofZ k) (nofZ n)) in
  Valid p /\ Fin p /\ Rabs (val p - (1 - IZR k / IZR n)) <= bpow radix2 (-52).
Proof.
  intros Hk Hn p. destruct (ofZ_spec k ltac:(lia)) as (Vk & Fk & Ek). destruct (ofZ_spec 1 ltac:(lia)) as (V1 & F1 & E1).
  assert (Pn : 0 < IZR n) by (apply IZR_lt; lia). assert (Pk : 0 <= IZR k) by (apply IZR_le; lia). assert (Pkn : IZR k <= IZR n) by (apply IZR_le; lia).
  assert (Q : 0 <= IZR k / IZR n <= 1). { split; [apply Rmult_le_pos; [exact Pk|left; now apply Rinv_0_lt_compat]|]. apply Rmult_le_reg_r with (IZR n); [exact Pn|]. unfold Rdiv. rewrite Rmult_assoc, Rinv_l by lra. lra. }
  set (q := IZR k / IZR n) in *.
  assert (B10 : 2 <= bpow radix2 1010). { change 2 with (bpow radix2 1). apply bpow_le. lia. }
  assert (U : 0 < bpow radix2 (-53) <= / 1024). { split; [apply bpow_gt_0|]. change (/ 1024) with (bpow radix2 (-10)). apply bpow_le. lia. }
  assert (T : 0 <= bpow radix2 (-1075) <= bpow radix2 (-53) / 4). { split; [apply bpow_ge_0|]. replace (bpow radix2 (-53) / 4) with (bpow radix2 (-55)); [apply bpow_le; lia|]. change (-53)%Z with (2 + -55)%Z. rewrite bpow_plus. change (bpow radix2 2) with 4. field. }
  assert (D52 : bpow radix2 (-52) = 2 * bpow radix2 (-53)). { change (-52)%Z with (1 + -53)%Z. rewrite bpow_plus. reflexivity. }
  destruct (div_err (b64_ofZ k) n (conj Vk Fk) Hn) as ((Vd & Fd) & Ed). { rewrite Ek. fold q. rewrite Rabs_right by lra. lra. }
  rewrite Ek in Ed. fold q in Ed. rewrite (Rabs_right q) in Ed by lra. set (d := SFdiv b64_prec b64_emax (b64_ofZ k) (b64_ofZ n)) in *.
  apply Rabs_le_inv in Ed. set (u := bpow radix2 (-53)) in *. set (tiny := bpow radix2 (-1075)) in *.
  assert (Hd : - u <= val d <= 1 + 2 * u) by nra.
  destruct (sub_err (b64_ofZ 1) d (conj V1 F1) (conj Vd Fd)) as ((Vp & Fp) & Ep). { rewrite E1. apply Rabs_le. lra. }
  rewrite E1 in Ep. assert (A : Rabs (1 - val d) <= 1 - q + u * q + tiny) by (apply Rabs_le; nra).
  split; [exact Vp|]. split; [exact Fp|]. rewrite D52. change p with (SFsub b64_prec b64_emax (b64_ofZ 1) d).
  fold u in Ep. assert (Ep2 : Rabs (val (SFsub b64_prec b64_emax (b64_ofZ 1) d) - (1 - val d)) <= u * (1 - q + u * q + tiny)).
  { eapply Rle_trans; [exact Ep|]. apply Rmult_le_compat_l; lra. }
  apply Rabs_le_inv in Ep2. apply Rabs_le. nra.
Qed.

Lemma filter_len {A} (f : A -> bool) (l : list A) : (length (filter f l) <= length l)%nat.
Proof. induction l as [|a l IH]; cbn [filter]; [lia|]. destruct (f a); cbn [length]; lia. Qed.
(** The share of the [n] values that is missing among [k]. *)
Definition Removed (n k : nat) : R := INR (n - k) / INR n.
Lemma Removed_Z n k : (k <= n)%nat -> (0 < n)%nat -> Removed n k = 1 - IZR (Z.of_nat k) / IZR (Z.of_nat n).
Proof.
  intros H Hn. unfold Removed. rewrite minus_INR by exact H. rewrite !INR_IZR_INZ. assert (0 < IZR (Z.of_nat n)) by (apply IZR_lt; lia). field. lra.
Qed.

(** C124. In binary64, for fewer than 2^53 eigenvalues and every finite [max_trim]: each recorded trim removes at most the share
    max_trim + 2^-52, and when the loop stops early without having run out of outliers, the refused trim would have removed more than max_trim - 2^-52. *)
Theorem C124_max_trim : forall (U : Type) hbos (fit_all : list b64 -> result U) values (max_trim : b64) max_iters its,
  (forall id l lab, hbos id l = Ok lab -> length lab = length l) -> (Z.of_nat (length values) < 2 ^ 53)%Z ->
  valid_binary b64_prec b64_emax max_trim = true -> is_finite_SF max_trim = true ->
  trim_iters hbos fit_all values max_trim max_iters = Ok its ->
  (forall k t, nth_error its (S k) = Some t -> Removed (length values) (length (ti_eigs t)) <= SF2R radix2 max_trim + bpow radix2 (-52)) /\
  ((Z.of_nat (length its) < Z.max 0 max_iters + 1)%Z -> forall l, last_opt its = Some l ->
     ((1 < length its)%nat /\ is_all_inliers l = true) \/
     exists nx, next_iter hbos fit_all l = Ok nx /\ SF2R radix2 max_trim - bpow radix2 (-52) < Removed (length values) (length (ti_eigs nx))).
Proof.
  intros U hbos fit_all values mt mi its Hlen Hn Vm Fm H.
  destruct (C10_trim_iterations b64 U Num_b64 _ hbos fit_all values mt mi its Hlen H) as (_ & (t0 & H0 & HP & _ & Hall) & _ & Hrem & Hstop).
  pose proof (Permutation_length HP) as HL.
  assert (Len0 : (0 < length values)%nat). { destruct (Hall 0%nat t0 H0) as (_ & Hne & _). rewrite HL. destruct (ti_eigs t0); [congruence|cbn; lia]. }
  assert (Key : forall t, ti_origs t = ti_eigs t0 -> (length (ti_eigs t) <= length values)%nat ->
    (ngt (@proportion_removed b64 Num_b64 U t) mt = true -> val mt - bpow radix2 (-52) < Removed (length values) (length (ti_eigs t))) /\
    (ngt (@proportion_removed b64 Num_b64 U t) mt = false -> Removed (length values) (length (ti_eigs t)) <= val mt + bpow radix2 (-52))).
  { intros t Ho Hle. rewrite Removed_Z by assumption. unfold proportion_removed, nlen. rewrite Ho, <- HL.
    destruct (removed_err (Z.of_nat (length (ti_eigs t))) (Z.of_nat (length values)) ltac:(lia) ltac:(lia)) as (Vp & Fp & Ep).
    match type of Vp with valid_binary _ _ ?x = true => set (p := x) in * end.
    change (@nsub b64 Num_b64 n1 (ndiv (nofZ (Z.of_nat (length (ti_eigs t)))) (nofZ (Z.of_nat (length values))))) with p.
    pose proof (ltb_spec mt p Vm Vp Fm Fp) as C. apply Rabs_le_inv in Ep. unfold ngt. change (@nlt b64 Num_b64 mt p) with (SFltb mt p).
    split; intros E.
    - apply C in E. lra.
    - assert (~ val mt < val p) by (intro G; apply C in G; congruence). lra. }
  split.
  - intros k t Ht. destruct (Hall _ _ Ht) as (_ & _ & Hc & Ho). apply Key; [exact Ho| |now apply (Hrem k)].
    rewrite HL. destruct Hc as (pre & suf & ->). rewrite !app_length. lia.
  - intros Hs l Hl. destruct (Hstop Hs l Hl) as [A|(nx & E & G)]; [now left|right]. exists nx. split; [exact E|].
    assert (Hin : exists k, nth_error its k = Some l).
    { unfold last_opt in Hl. eauto. }
    destruct Hin as (k & Hk). destruct (Hall _ _ Hk) as (_ & _ & Hc & Ho).
    assert (X : ti_origs nx = ti_origs l /\ (length (ti_eigs nx) <= length (ti_eigs l))%nat).
    { unfold next_iter, new_iter in E. destruct (hbos (S (ti_id l)) (inliers l)) as [lab|] eqn:El; [|discriminate]. cbn [bind] in E.
      destruct (outlier_labels lab) as [cl|]; [|discriminate]. cbn [bind] in E. destruct (fit_all (inliers l)); [|discriminate]. cbn [bind] in E.
      injection E as <-. cbn [ti_origs ti_eigs]. split; [reflexivity|]. unfold inliers. rewrite map_length.
      eapply Nat.le_trans; [apply filter_len|]. rewrite combine_length. lia. }
    destruct X as (X1 & X2). apply Key; [congruence| |exact G]. rewrite HL. destruct Hc as (pre & suf & E2). rewrite E2, !app_length. lia.
Qed.
Print Assumptions C124_max_trim.

(** The documented reading, a trim of exactly the share [max_trim] is allowed, is decided by rounding: with 10 eigenvalues and [max_trim = 0.3]
    a trim of 3 is refused (1 - 7/10 is 0.30000000000000004), with [max_trim = 0.6] a trim of 6 is kept. *)
Definition ten : list b64 := map b64_ofZ [1; 2; 3; 4; 5; 6; 7; 8; 9; 10]%Z.
Definition above (z : Z) (id : nat) (l : list b64) : result (list bool) := Ok (map (fun x => nlt (b64_ofZ z) x) l).
Theorem C124_boundary_refuted :
  (exists t, trim_iters (above 7) ex_fit ten (ndiv (b64_ofZ 3) (b64_ofZ 10)) 7 = Ok [t]) /\
  (exists t0 t1, trim_iters (above 4) ex_fit ten (ndiv (b64_ofZ 6) (b64_ofZ 10)) 7 = Ok [t0; t1] /\ ti_eigs t1 = map b64_ofZ [1; 2; 3; 4]%Z) /\
  Removed 10 7 = 3 / 10 /\ Removed 10 4 = 6 / 10.
Proof.
  split; [eexists; vm_compute; reflexivity|]. split; [do 2 eexists; split; vm_compute; reflexivity|]. unfold Removed. split; cbn; field.
Qed.
Print Assumptions C124_boundary_refuted.
(** The hypotheses are met by that run; there the recorded trim of 6/10 is within 2^-52 of the limit. *)
Example C124_case : (exists its, trim_iters (above 4) ex_fit ten (ndiv (b64_ofZ 6) (b64_ofZ 10)) 7 = Ok its /\ length its = 2%nat) /\
  (forall id l lab, above 4 id l = Ok lab -> length lab = length l) /\
  valid_binary b64_prec b64_emax (ndiv (b64_ofZ 6) (b64_ofZ 10)) = true /\ is_finite_SF (ndiv (b64_ofZ 6) (b64_ofZ 10)) = true.
Proof.
  split; [eexists; split; vm_compute; reflexivity|]. split; [|split; vm_compute; reflexivity]. intros id l lab H. unfold above in H. injection H as <-. apply map_length.
Qed.
