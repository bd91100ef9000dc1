(** Property C112: rounding error of the running mean of the rigidity and of the level variance in binary64. *)
From Coq Require Import List ZArith Bool Reals Lra Lia Arith QArith.
From Coq Require Import Floats.SpecFloat.
From Flocq Require Import Core BinarySingleNaN Relative.
From Verif Require Import Base S_Order S_EigVals S_Trim M_Step M_Quad M_Loops S_Quad S_Loops P_Order P_Step P_EigVals P_TrimStat P_Quad P_Ols P_Loops P_Delta P_Float P_FloatGrid T_FloatDraw T_FloatGap P_FloatMean.
Import ListNotations.
Local Open Scope R_scope.
Local Notation length := List.length.
#[local] Existing Instance Hprec.
#[local] Existing Instance Hmax.
Local Notation OK x := (Valid x /\ Fin x).
Local Notation u := (bpow radix2 (-53)).
Local Notation mulf := (SFmul b64_prec b64_emax).
Local Notation subf := (SFsub b64_prec b64_emax).

(** ** The invariant: K * (mean - carry) is within K * 29 u B of the exact sum S. *)
Section Mean.
Variable B : R.
Hypothesis HB : bpow radix2 (-900) <= B <= bpow radix2 1000.
Definition Inv (K S : R) (m c : b64) : Prop :=
  OK m /\ OK c /\ Rabs (val c) <= 12 * (u * B) /\ Rabs (val m) <= 2 * B /\ Rabs (K * (val m - val c) - S) <= K * (29 * (u * B)).
Lemma Inv_err K S m c : 1 <= K -> Inv K S m c -> Rabs (val m - S / K) <= 41 * (u * B).
Proof.
  intros HK (_ & _ & Hc & _ & H). assert (E : Rabs (val m - val c - S / K) <= 29 * (u * B)).
  { apply (Rmult_le_reg_l K); [lra|]. rewrite <- (Rabs_pos_eq K) at 1 by lra. rewrite <- Rabs_mult.
    replace (K * (val m - val c - S / K)) with (K * (val m - val c) - S) by (field; lra). exact H. }
  iv Hc. iv E. apply Rabs_le. lra.
Qed.
Lemma Inv_step k S s c x : (1 <= k <= 2 ^ 50)%Z -> Inv (IZR (k - 1)) S s c -> OK x -> Rabs (val x) <= B -> Rabs (S + val x) <= IZR k * B ->
  Inv (IZR k) (S + val x) (fst (fupdate s x c k)) (snd (fupdate s x c k)).
Proof.
  intros Hk (Os & Oc & Hc & Hs & H) Ox Hx HS. destruct (update_ok B HB s x c k Os Ox Oc Hk Hx Hs Hc) as (Om & Oc' & Hc' & E).
  set (m := fst (fupdate s x c k)) in *. set (c' := snd (fupdate s x c k)) in *. pose proof (B_pos B HB) as B0. pose proof u_range as (U0 & U1).
  assert (K1 : 1 <= IZR k) by (apply IZR_le; lia). rewrite minus_IZR in H. split; [exact Om|]. split; [exact Oc'|]. split; [exact Hc'|].
  assert (T : Rabs (IZR k * (val m - val c') - (S + val x)) <= IZR k * (29 * (u * B))).
  { replace (IZR k * (val m - val c') - (S + val x)) with (IZR k * (val m - val c') - ((IZR k - 1) * (val s - val c) + val x) + ((IZR k - 1) * (val s - val c) - S)) by ring.
    eapply Rle_trans; [apply Rabs_triang|]. replace (IZR k * (29 * (u * B))) with (29 * (u * B) + (IZR k - 1) * (29 * (u * B))) by ring. now apply Rplus_le_compat. }
  split; [|exact T]. assert (I : Rabs (val m - (S + val x) / IZR k) <= 41 * (u * B)).
  { assert (E1 : Rabs (val m - val c' - (S + val x) / IZR k) <= 29 * (u * B)).
    { apply (Rmult_le_reg_l (IZR k)); [lra|]. rewrite <- (Rabs_pos_eq (IZR k)) at 1 by lra. rewrite <- Rabs_mult.
      replace (IZR k * (val m - val c' - (S + val x) / IZR k)) with (IZR k * (val m - val c') - (S + val x)) by (field; lra). exact T. }
    iv E1. iv Hc'. apply Rabs_le. lra. }
  assert (J : Rabs ((S + val x) / IZR k) <= B).
  { unfold Rdiv. rewrite Rabs_mult, (Rabs_pos_eq (/ IZR k)) by (left; apply Rinv_0_lt_compat; lra). apply (Rmult_le_reg_r (IZR k)); [lra|].
    replace (Rabs (S + val x) * / IZR k * IZR k) with (Rabs (S + val x)) by (field; lra). lra. }
  iv I. iv J. apply Rabs_le. nra.
Qed.
Lemma Inv_start x : OK x -> Rabs (val x) <= B -> Inv 0 0 x (S754_zero false) /\ Inv 1 (val x) x (S754_zero false).
Proof.
  intros Ox Hx. pose proof (B_pos B HB) as B0. pose proof u_range as (U0 & U1). unfold Inv. change (val (S754_zero false)) with 0. rewrite Rabs_R0.
  assert (0 <= u * B) by nra. assert (OK (S754_zero false)) by (split; reflexivity). assert (0 <= val x <= B \/ 0 <= - val x <= B) by (unfold Rabs in Hx; destruct (Rcase_abs _) in Hx; lra).
  split; (split; [exact Ox|]; split; [assumption|]; split; [lra|]; split; [lra|]).
  - replace (0 * (val x - 0) - 0) with 0 by ring. rewrite Rabs_R0. lra.
  - replace (1 * (val x - 0) - val x) with 0 by ring. rewrite Rabs_R0. lra.
Qed.
End Mean.
Lemma Rsum_abs (f : nat -> R) B l : (forall i, Rabs (f i) <= B) -> Rabs (Rsum (map f l)) <= INR (length l) * B.
Proof.
  intros H. induction l as [|a l IH]; [cbn; rewrite Rabs_R0; lra|]. cbn [map length]. rewrite Rsum_cons, S_INR. eapply Rle_trans; [apply Rabs_triang|]. specialize (H a). lra.
Qed.

(** ** The rigidity loop *)
Lemma d_after_Inv B size (v : nat -> b64) : bpow radix2 (-900) <= B <= bpow radix2 1000 -> (forall i, OK (v i) /\ Rabs (val (v i)) <= B) ->
  forall m, (Z.of_nat m + 1 <= 2 ^ 50)%Z ->
  Inv B (IZR (Z.of_nat m + 1)) (Rsum (map (fun i => val (v i)) (seq 0 (S m)))) (d_mean (d_after size v m)) (d_c (d_after size v m)).
Proof.
  intros HB Hv. induction m as [|m IH]; intros Hm.
  - cbn [d_after delta_init d_mean d_c seq map Z.of_nat Z.add]. rewrite Rsum_cons. change (Rsum []) with 0. rewrite Rplus_0_r. apply Inv_start; auto; apply Hv.
  - cbn [d_after]. unfold delta_pass. cbn [d_mean d_c]. rewrite d_after_k. specialize (IH ltac:(lia)).
    rewrite (seq0_S (fun i => val (v i)) (S m)), Rsum_app, Rsum_cons. change (Rsum []) with 0. rewrite Rplus_0_r.
    replace (Z.of_nat (S m) + 1)%Z with (Z.of_nat m + 1 + 1)%Z by lia.
    refine (Inv_step B HB (Z.of_nat m + 1 + 1) _ _ _ (v (S m)) _ _ _ _ _); [lia| |apply Hv|apply Hv|].
    + replace (Z.of_nat m + 1 + 1 - 1)%Z with (Z.of_nat m + 1)%Z by lia. exact IH.
    + pose proof (Rsum_abs (fun i => val (v i)) B (seq 0 (S (S m))) (fun i => proj2 (Hv i))) as A. rewrite seq_length in A.
      rewrite (seq0_S (fun i => val (v i)) (S m)), Rsum_app, Rsum_cons in A. change (Rsum []) with 0 in A. rewrite Rplus_0_r in A.
      rewrite INR_IZR_INZ in A. replace (Z.of_nat (S (S m))) with (Z.of_nat m + 1 + 1)%Z in A by lia. exact A.
Qed.

(** C112. When every sampled rigidity is a finite binary64 number of magnitude at most B, the running mean kept by the loop is, after
    every number of passes up to the last, finite and within 41 * 2^-53 * B of the exact mean of the samples; the bound does not grow with the number of passes. *)
Theorem C112_rigidity_mean : forall size (sample : nat -> outcome b64) v mx mn tol B s,
  (forall i, sample i = Done (v i)) ->
  (forall i, valid_binary b64_prec b64_emax (v i) = true /\ is_finite_SF (v i) = true /\ Rabs (SF2R radix2 (v i)) <= B) ->
  bpow radix2 (-900) <= B <= bpow radix2 1000 -> (mx <= 2 ^ 50)%Z ->
  delta_run size sample mx mn tol = Done s ->
  is_finite_SF (d_mean s) = true /\
  Rabs (SF2R radix2 (d_mean s) - Rmean (map (fun i => SF2R radix2 (v i)) (seq 0 (Z.to_nat (d_k s))))) <= 41 * (bpow radix2 (-53) * B).
Proof.
  intros size sample v mx mn tol B s Hs Hv HB Hmx H. destruct (delta_run_done size v sample mx mn tol Hs) as (m & E & H1 & H2 & _).
  assert (s = d_after size v m) as -> by congruence. rewrite d_after_k. replace (Z.to_nat (Z.of_nat m + 1)) with (S m) by lia.
  assert (I : Inv B (IZR (Z.of_nat m + 1)) (Rsum (map (fun i => val (v i)) (seq 0 (S m)))) (d_mean (d_after size v m)) (d_c (d_after size v m))).
  { apply d_after_Inv; auto; [|lia]. intros i. destruct (Hv i) as (A & C & D). auto. }
  split; [apply I|]. rewrite Rmean_INR, map_length, seq_length. rewrite INR_IZR_INZ. replace (Z.of_nat (S m)) with (Z.of_nat m + 1)%Z by lia.
  eapply Inv_err; [apply IZR_le; lia|exact I].
Qed.
Print Assumptions C112_rigidity_mean.

(** ** The level variance loop *)
(** The number of levels between the ends of the window of width L about c, the ends being the rounded sums (levelvariance.py:248-249). *)
Definition FWindow (x : list b64) (L c : b64) : Z :=
  let h := ndiv L (nofZ 2) in Z.of_nat (length (filter (fun y => SFleb (nsub c h) y && SFleb y (nadd c h)) x)).
Lemma n_within_F x L c : n_within x L c = FWindow x L c.
Proof. reflexivity. Qed.
Lemma FWindow_range x L c : (0 <= FWindow x L c <= Z.of_nat (length x))%Z.
Proof. unfold FWindow. cbv zeta. split; [lia|]. apply inj_le. generalize (fun y => SFleb (nsub c (ndiv L (nofZ 2))) y && SFleb y (nadd c (ndiv L (nofZ 2)))). intros f. induction x as [|a x IH]; [cbn; lia|]. cbn [filter]. destruct (f a); cbn [length]; lia. Qed.

Section Sigma.
Variables (size : Z) (x : list b64) (L : b64) (c : nat -> b64).
Local Notation N := (Z.of_nat (length x)).
Hypothesis HN : (1 <= N <= 2 ^ 26)%Z.
Local Notation n i := (IZR (FWindow x L (c i))).
Local Notation st k := (s_after size x L c k).
Lemma count_ok z : (0 <= z <= N)%Z -> OK (b64_ofZ z) /\ Rabs (val (b64_ofZ z)) <= IZR N /\ val (b64_ofZ z) = IZR z.
Proof. intros Hz. destruct (ofZ_spec z ltac:(lia)) as (V & F & E). split; [auto|]. rewrite E. split; [|reflexivity]. rewrite Rabs_pos_eq by (apply IZR_le; lia). apply IZR_le. lia. Qed.
Lemma square_ok z : (0 <= z <= N)%Z -> OK (b64_ofZ (z * z)) /\ Rabs (val (b64_ofZ (z * z))) <= IZR N * IZR N /\ val (b64_ofZ (z * z)) = IZR z * IZR z.
Proof.
  intros Hz. assert (z * z <= N * N)%Z by nia. destruct (ofZ_spec (z * z) ltac:(nia)) as (V & F & E). split; [auto|]. rewrite E, mult_IZR. split; [|reflexivity].
  rewrite <- !mult_IZR. rewrite Rabs_pos_eq by (apply IZR_le; nia). apply IZR_le. nia.
Qed.
Lemma N_range : bpow radix2 (-900) <= IZR N <= bpow radix2 26.
Proof.
  split; [apply Rle_trans with (bpow radix2 0); [apply bp_mono; lia|cbn; apply IZR_le; lia]|]. change (bpow radix2 26) with (IZR (2 ^ 26)). apply IZR_le. lia.
Qed.
Lemma N_ok : bpow radix2 (-900) <= IZR N <= bpow radix2 1000.
Proof. pose proof N_range as (A & B). split; [exact A|]. eapply Rle_trans; [exact B|apply bp_mono; lia]. Qed.
Lemma NN_ok : bpow radix2 (-900) <= IZR N * IZR N <= bpow radix2 1000.
Proof.
  pose proof N_range as (A & B). assert (1 <= IZR N) by (apply IZR_le; lia). split; [nra|].
  apply Rle_trans with (bpow radix2 26 * bpow radix2 26); [apply Rmult_le_compat; lra|]. rewrite <- bpow_plus. apply bp_mono. lia.
Qed.
Lemma s_after_Inv k : (Z.of_nat k <= 2 ^ 50)%Z ->
  Inv (IZR N) (IZR (Z.of_nat k)) (Rsum (map (fun i => n i) (seq 1 k))) (s_mean (st k)) (s_cmean (st k)) /\
  Inv (IZR N * IZR N) (IZR (Z.of_nat k)) (Rsum (map (fun i => n i * n i) (seq 1 k))) (s_sq (st k)) (s_csq (st k)).
Proof.
  induction k as [|k IH]; intros Hk.
  - cbn [s_after sigma_init s_mean s_cmean s_sq s_csq seq map Z.of_nat]. rewrite n_within_F. change (Rsum []) with 0.
    destruct (count_ok _ (FWindow_range x L (c 0%nat))) as (A & B & _). destruct (square_ok _ (FWindow_range x L (c 0%nat))) as (A' & B' & _).
    split; [apply (Inv_start _ N_ok); auto|apply (Inv_start _ NN_ok); auto].
  - specialize (IH ltac:(lia)) as (I1 & I2). cbn [s_after]. unfold sigma_pass. cbn [s_mean s_cmean s_sq s_csq]. rewrite s_after_k, n_within_F.
    destruct (count_ok _ (FWindow_range x L (c (S k)))) as (A & B & E). destruct (square_ok _ (FWindow_range x L (c (S k)))) as (A' & B' & E').
    rewrite !seq_map_S, !Rsum_app, !Rsum_cons. change (Rsum []) with 0. rewrite !Rplus_0_r. cbn [Nat.add].
    replace (Z.of_nat (S k)) with (Z.of_nat k + 1)%Z by lia.
    assert (K : IZR (Z.of_nat k + 1) = INR (S k)) by (rewrite INR_IZR_INZ; f_equal; lia).
    split.
    + rewrite <- E. refine (Inv_step _ N_ok (Z.of_nat k + 1) _ _ _ (b64_ofZ _) _ _ A B _); [lia|replace (Z.of_nat k + 1 - 1)%Z with (Z.of_nat k) by lia; exact I1|].
      rewrite E, K. pose proof (Rsum_abs (fun i => n i) (IZR N) (seq 1 (S k))) as T. rewrite seq_length, seq_map_S, Rsum_app, Rsum_cons in T. change (Rsum []) with 0 in T. rewrite Rplus_0_r in T.
      apply T. intros i. destruct (count_ok _ (FWindow_range x L (c i))) as (_ & B1 & E1). now rewrite <- E1.
    + rewrite <- E'. refine (Inv_step _ NN_ok (Z.of_nat k + 1) _ _ _ (b64_ofZ _) _ _ A' B' _); [lia|replace (Z.of_nat k + 1 - 1)%Z with (Z.of_nat k) by lia; exact I2|].
      rewrite E', K. pose proof (Rsum_abs (fun i => n i * n i) (IZR N * IZR N) (seq 1 (S k))) as T. rewrite seq_length, seq_map_S, Rsum_app, Rsum_cons in T. change (Rsum []) with 0 in T. rewrite Rplus_0_r in T.
      apply T. intros i. destruct (square_ok _ (FWindow_range x L (c i))) as (_ & B1 & E1). now rewrite <- E1.
Qed.
Lemma sigma_float k : (1 <= k)%nat -> (Z.of_nat k <= 2 ^ 50)%Z ->
  Fin (s_sigma (st k)) /\ Rabs (val (s_sigma (st k)) - PopVar (map (fun i => n i) (seq 1 k))) <= 128 * (u * (IZR N * IZR N)).
Proof.
  intros Hk Hk2. destruct (s_after_Inv k Hk2) as (I1 & I2). assert (K1 : 1 <= IZR (Z.of_nat k)) by (apply IZR_le; lia).
  pose proof (Inv_err _ _ _ _ _ K1 I1) as E1. pose proof (Inv_err _ _ _ _ _ K1 I2) as E2.
  assert (P : PopVar (map (fun i => n i) (seq 1 k)) = Rsum (map (fun i => n i * n i) (seq 1 k)) / IZR (Z.of_nat k) - Rsum (map (fun i => n i) (seq 1 k)) / IZR (Z.of_nat k) * (Rsum (map (fun i => n i) (seq 1 k)) / IZR (Z.of_nat k))).
  { rewrite var_moments by (destruct k; [lia|discriminate]). rewrite map_map, Rmean_INR, !map_length, seq_length, INR_IZR_INZ. reflexivity. }
  rewrite P. clear P.
  assert (M1 : Rabs (Rsum (map (fun i => n i) (seq 1 k)) / IZR (Z.of_nat k)) <= IZR N).
  { unfold Rdiv. rewrite Rabs_mult, (Rabs_pos_eq (/ _)) by (left; apply Rinv_0_lt_compat; lra). apply (Rmult_le_reg_r (IZR (Z.of_nat k))); [lra|].
    rewrite Rmult_assoc, Rinv_l, Rmult_1_r by lra. rewrite (Rmult_comm (IZR N)), <- INR_IZR_INZ. rewrite <- (seq_length k 1) at 2. apply Rsum_abs.
    intros i. destruct (count_ok _ (FWindow_range x L (c i))) as (_ & B1 & E). now rewrite <- E. }
  set (M := Rsum (map (fun i => n i) (seq 1 k)) / IZR (Z.of_nat k)) in *. set (Q := Rsum (map (fun i => n i * n i) (seq 1 k)) / IZR (Z.of_nat k)) in *.
  assert (ES : s_sigma (st k) = subf (s_sq (st k)) (mulf (s_mean (st k)) (s_mean (st k)))) by (destruct k; reflexivity). rewrite ES. clear ES.
  destruct I1 as (Om & _ & _ & Bm & _). destruct I2 as (Oq & _ & _ & Bq & _). set (m := s_mean (st k)) in *. set (q := s_sq (st k)) in *.
  pose proof u_range as (U0 & U1). assert (N1 : 1 <= IZR N) by (apply IZR_le; lia). pose proof NN_ok as (_ & NN). set (W := IZR N * IZR N) in *.
  assert (W1 : 1 <= W) by (unfold W; nra). set (V := u * W) in *. assert (V1 : 0 < V <= W / 1024) by (unfold V; nra).
  assert (mm : Rabs (val m - M) <= IZR N / 2000).
  { eapply Rle_trans; [exact E1|]. assert (u <= / 1048576) by (apply Rle_trans with (bpow radix2 (-20)); [apply bp_mono; lia|cbn; lra]). nra. }
  assert (MM : Rabs (val m * val m - M * M) <= 821 / 10 * V).
  { replace (val m * val m - M * M) with ((val m - M) * (val m + M)) by ring. rewrite Rabs_mult.
    assert (Rabs (val m + M) <= 2001 / 1000 * IZR N) by (iv mm; iv M1; apply Rabs_le; lra).
    apply Rle_trans with (41 * (u * IZR N) * (2001 / 1000 * IZR N)); [apply Rmult_le_compat; auto; apply Rabs_pos|]. unfold V, W. nra. }
  assert (m2 : Rabs (val m * val m) <= 111 / 100 * W).
  { rewrite Rabs_mult. assert (Rabs (val m) <= 105 / 100 * IZR N) by (iv mm; iv M1; apply Rabs_le; lra). pose proof (Rabs_pos (val m)).
    apply Rle_trans with (105 / 100 * IZR N * (105 / 100 * IZR N)); [apply Rmult_le_compat; auto|]. unfold W. nra. }
  assert (G : forall a, 0 <= a <= 1024 -> a * W <= bpow radix2 1010) by (intros a Ha; apply (mult_big W NN_ok a Ha)).
  destruct Om as (Vm & Fm). destruct (mul_spec m m Vm Vm Fm Fm) as (Vp & Fp & Ep). { apply (lt_big _ 1010); [lia|]. eapply Rle_trans; [exact m2|apply G; lra]. }
  set (p := mulf m m) in *. pose proof (rnd_any (val m * val m)) as Rp. rewrite <- Ep in Rp.
  assert (T : bpow radix2 (-1075) <= u / 100).
  { apply Rle_trans with (bpow radix2 (-60)); [apply bp_mono; lia|]. change (-60)%Z with (-7 + -53)%Z. rewrite bpow_plus. change (bpow radix2 (-7)) with (/ 128). lra. }
  assert (Rp' : Rabs (val p - val m * val m) <= 112 / 100 * V + V / 100).
  { assert (u <= V) by (unfold V; nra). pose proof (abs_mul_le u _ _ ltac:(lra) m2) as A. replace (u * (111 / 100 * W)) with (111 / 100 * V) in A by (unfold V; ring). lra. }
  destruct (sub_err q p Oq (conj Vp Fp)) as (Os & Es).
  { eapply Rle_trans; [|apply (G 4); lra]. iv Bq. iv m2. iv Rp'. apply Rabs_le. lra. }
  split; [apply Os|]. assert (qp : Rabs (val q - val p) <= 32 / 10 * W) by (iv Bq; iv m2; iv Rp'; apply Rabs_le; lra).
  pose proof (abs_mul_le u _ _ ltac:(lra) qp) as A. replace (u * (32 / 10 * W)) with (32 / 10 * V) in A by (unfold V; ring).
  assert (Es' : Rabs (val (subf q p) - (val q - val p)) <= 32 / 10 * V) by lra.
  iv Es'. iv Rp'. iv MM. iv E2. apply Rabs_le. lra.
Qed.
End Sigma.

Lemma nmin_b64 (h : b64) t : List.Forall NotNaN (h :: t) -> In (nmin h t) (h :: t) /\ forall y, In y (h :: t) -> Le (nmin h t) y.
Proof.
  unfold nmin. revert h. induction t as [|a t IH]; intros h H; inversion H as [|? ? Hh Ht]; subst.
  - cbn. split; [auto|]. intros y [<-|[]]. destruct (ol_total h h Hh Hh); assumption.
  - inversion Ht as [|? ? Ha Ht']; subst. cbn [fold_left]. assert (M : (nmin2 h a = h \/ nmin2 h a = a) /\ Le (nmin2 h a) h /\ Le (nmin2 h a) a).
    { unfold nmin2, Le. destruct (nlt a h) eqn:E; rewrite ol_lt in E by assumption.
      - split; [auto|]. destruct (ol_total a h Ha Hh) as [K|K]; destruct (ol_total a a Ha Ha); auto; rewrite K in E; discriminate.
      - split; [auto|]. apply negb_false_iff in E. destruct (ol_total h h Hh Hh); auto. }
    destruct M as (M1 & M2 & M3). assert (Hm : NotNaN (nmin2 h a)) by (destruct M1 as [-> | ->]; assumption).
    destruct (IH (nmin2 h a) (List.Forall_cons _ Hm Ht')) as (I1 & I2). split.
    + cbn. destruct I1 as [I1|I1]; [rewrite <- I1; destruct M1 as [M1|M1]; rewrite M1; auto|auto].
    + pose proof (I2 _ (or_introl eq_refl)) as I3. intros y [<-|[<-|Hy]]; [exact (ol_trans _ _ _ I3 M2)|exact (ol_trans _ _ _ I3 M3)|apply I2; now right].
Qed.
Lemma nmax_b64 (h : b64) t : List.Forall NotNaN (h :: t) -> In (nmax h t) (h :: t) /\ forall y, In y (h :: t) -> Le y (nmax h t).
Proof.
  unfold nmax. revert h. induction t as [|a t IH]; intros h H; inversion H as [|? ? Hh Ht]; subst.
  - cbn. split; [auto|]. intros y [<-|[]]. destruct (ol_total h h Hh Hh); assumption.
  - inversion Ht as [|? ? Ha Ht']; subst. cbn [fold_left]. assert (M : (nmax2 h a = h \/ nmax2 h a = a) /\ Le h (nmax2 h a) /\ Le a (nmax2 h a)).
    { unfold nmax2, Le. destruct (nlt h a) eqn:E; rewrite ol_lt in E by assumption.
      - split; [auto|]. destruct (ol_total h a Hh Ha) as [K|K]; destruct (ol_total a a Ha Ha); auto; rewrite K in E; discriminate.
      - split; [auto|]. apply negb_false_iff in E. destruct (ol_total h h Hh Hh); auto. }
    destruct M as (M1 & M2 & M3). assert (Hm : NotNaN (nmax2 h a)) by (destruct M1 as [-> | ->]; assumption).
    destruct (IH (nmax2 h a) (List.Forall_cons _ Hm Ht')) as (I1 & I2). split.
    + cbn. destruct I1 as [I1|I1]; [rewrite <- I1; destruct M1 as [M1|M1]; rewrite M1; auto|auto].
    + pose proof (I2 _ (or_introl eq_refl)) as I3. intros y [<-|[<-|Hy]]; [exact (ol_trans _ _ _ M2 I3)|exact (ol_trans _ _ _ M3 I3)|apply I2; now right].
Qed.

(** C112. For at most 2^26 levels and 2^50 iterations, the level variance computed in binary64 is finite and within 2^-46 times the square of the number of levels
    of the exact population variance of the window counts of draws 1..k, whatever the levels (none NaN), L, the tolerance and the draws. *)
Theorem C112_level_variance : forall (x : list b64) L mx tol mn draws, (1 <= Z.of_nat (length x) <= 2 ^ 26)%Z -> List.Forall NotNaN x -> (mx <= 2 ^ 50)%Z ->
  exists lo hi s conv k, In lo x /\ In hi x /\ (forall y, In y x -> Le lo y /\ Le y hi) /\
    sigma_L x L mx tol mn draws = Ok (Done (s, conv, Z.of_nat k)) /\ (1 <= k)%nat /\ is_finite_SF s = true /\
    Rabs (SF2R radix2 s - PopVar (map (fun i => IZR (FWindow x L (uniform lo hi (draws i)))) (seq 1 k))) <= bpow radix2 (-46) * (INR (length x) * INR (length x)).
Proof.
  intros x L mx tol mn draws Hx Hnan Hmx. destruct x as [|h t]; [cbn in Hx; lia|]. destruct (sigma_L_run h t L mx tol mn draws) as (k & H & H1 & H2 & _).
  exists (nmin h t), (nmax h t). do 2 eexists. exists k. destruct (nmin_b64 h t Hnan) as (A1 & A2). destruct (nmax_b64 h t Hnan) as (B1 & B2).
  split; [exact A1|]. split; [exact B1|]. split; [auto|]. split; [exact H|]. split; [exact H1|].
  destruct (sigma_float BUFFER (h :: t) L (fun i => uniform (nmin h t) (nmax h t) (draws i)) Hx k H1 ltac:(lia)) as (F & E). split; [exact F|].
  rewrite INR_IZR_INZ. change (-46)%Z with (7 + -53)%Z. rewrite bpow_plus, Rmult_assoc. change (bpow radix2 7) with 128. exact E.
Qed.
Print Assumptions C112_level_variance.
(** Three levels, binary64: draws 1 and 2 see 1 and 2 levels and the variance 1/4 comes out exactly; over draws with counts 1, 1, 2 the
    exact variance is 2/9, whose nearest float has the significand 8006399337547548: the computed value is four units above it. *)
Example C112_case : let z := b64_ofZ in let third := S754_finite false 6004799503160661 (-54) in
  let draws2 j := match j with O => z 1%Z | S O => z 1%Z | _ => third end in
  let draws3 j := match j with O => z 1%Z | S O => z 1%Z | S (S O) => z 1%Z | _ => third end in
  sigma_L [z 0; z 1; z 3]%Z (z 2%Z) 2 (z 1%Z) 0 draws2 = Ok (Done (S754_finite false 4503599627370496 (-54), true, 2%Z)) /\
  sigma_L [z 0; z 1; z 3]%Z (z 2%Z) 3 (z 1%Z) 0 draws3 = Ok (Done (S754_finite false 8006399337547552 (-55), true, 3%Z)) /\
  ndiv (z 2%Z) (z 9%Z) = S754_finite false 8006399337547548 (-55).
Proof. vm_compute. repeat split. Qed.
(** Samples 1, 2^-60, 1/3, 1/3 (binary64): after four passes the mean is the float nearest to 5/12 and the carry is not zero. *)
Example C112_case_mean : let v j := match j with O => b64_ofZ 1 | S O => S754_finite false 1 (-60) | _ => S754_finite false 6004799503160661 (-54) end in
  exists s, delta_run 3 (fun j => Done (v j)) 4 0 (b64_ofZ 0) = Done s /\ d_k s = 4%Z /\ d_mean s = S754_finite false 7505999378950827 (-54) /\
    d_c s = S754_finite false 6755399441055744 (-108) /\ ndiv (b64_ofZ 5) (b64_ofZ 12) = S754_finite false 7505999378950827 (-54).
Proof. vm_compute. eexists. repeat split. Qed.
