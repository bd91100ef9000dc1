(** Property C129: the mean squared error of the Monte-Carlo level variance. *)
From Coq Require Import List ZArith Bool Arith Lia Reals Lra.
From Coquelicot Require Import Coquelicot.
From Verif Require Import Base M_Step S_Order S_EigVals S_Trim M_Loops S_Loops S_Average P_Order P_EigVals P_TrimStat P_Quad P_Ols P_Loops P_Delta T_Loops T_WindowMean T_NumberVariance T_RigidityMean T_RigidityError.
Import ListNotations.
Local Open Scope R_scope.
Local Notation length := List.length.

(** ** Averages exist for functions of step-like samples, and are monotone *)
Fixpoint Avg (k : nat) (f : list R -> R) : R :=
  match k with O => f [] | S k' => RInt (fun t => Avg k' (fun l => f (t :: l))) 0 1 end.
Lemma average_exists (g : R -> R) : (forall f : R -> R, ex_RInt (fun t => f (g t)) 0 1) ->
  forall k (P : list R -> R), IsAverage k (fun l => P (map g l)) (Avg k (fun l => P (map g l))).
Proof.
  intros Hg. induction k as [|k IH]; intros P; cbn [IsAverage Avg]; [reflexivity|].
  exists (fun t => Avg k (fun l => P (map g (t :: l)))). split; [intro t; exact (IH (fun l => P (g t :: l)))|].
  apply (RInt_correct (V := R_CompleteNormedModule)). exact (Hg (fun x => Avg k (fun l => P (x :: map g l)))).
Qed.
Lemma average_mono k : forall f g a b, (forall l, length l = k -> f l <= g l) -> IsAverage k f a -> IsAverage k g b -> a <= b.
Proof.
  induction k as [|k IH]; intros f g a b H; cbn [IsAverage]; [intros <- <-; now apply H|]. intros (f' & F & If) (g' & G & Ig).
  apply (is_RInt_le f' g' 0 1 a b ltac:(lra) If Ig). intros t _. apply (IH (fun l => f (t :: l)) (fun l => g (t :: l))); auto. intros l Hl. apply H. cbn. lia.
Qed.

(** ** The number of levels in a window, as a function of the centre *)
Lemma countin_agree (u : list R) L c c' : (forall e, In e u -> (e - L / 2 <= c <-> e - L / 2 <= c') /\ (c <= e + L / 2 <-> c' <= e + L / 2)) ->
  CountIn u (c - L / 2) (c + L / 2) = CountIn u (c' - L / 2) (c' + L / 2).
Proof.
  induction u as [|e u IH]; intros H; [reflexivity|]. cbn [CountIn]. rewrite IH by (intros; apply H; now right). f_equal. destruct (H e (or_introl eq_refl)) as (A & B).
  destruct (Rle_dec (c - L / 2) e), (Rle_dec (c' - L / 2) e), (Rle_dec e (c + L / 2)), (Rle_dec e (c' + L / 2)); try reflexivity; exfalso.
  all: first [assert (c' <= e + L / 2) by (apply B; lra); lra|assert (c <= e + L / 2) by (apply B; lra); lra|assert (e - L / 2 <= c') by (apply A; lra); lra|assert (e - L / 2 <= c) by (apply A; lra); lra].
Qed.
Lemma ex_count (u : list R) L lo hi (f : R -> R) : lo < hi -> ex_RInt (fun t => f (IZR (n_within u L (uniform lo hi t)))) 0 1.
Proof.
  intros Hlh. set (w := hi - lo). assert (Hw : 0 < w) by (unfold w; lra).
  apply (ex_RInt_thresholds (flat_map (fun e => [(e - L / 2 - lo) / w; (e + L / 2 - lo) / w]) u)); [lra|]. intros t t' _ _ H. f_equal. rewrite !n_within_R. do 2 f_equal.
  unfold uniform. cbn [nadd nmul nsub Num_R]. fold w. apply countin_agree. intros e He.
  assert (K : forall y s, (y - lo) / w <= s <-> y <= lo + w * s).
  { intros y s. split; intro Q; [apply (Rmult_le_compat_l w) in Q; [|lra]; replace (w * ((y - lo) / w)) with (y - lo) in Q by (field; lra); lra|].
    apply (Rmult_le_reg_l w); [exact Hw|]. replace (w * ((y - lo) / w)) with (y - lo) by (field; lra). lra. }
  assert (K' : forall y s, (y - lo) / w = s <-> y = lo + w * s).
  { intros y s. split; intro Q; [rewrite <- Q; field; lra|rewrite Q; field; lra]. }
  destruct (H ((e - L / 2 - lo) / w)) as (A & _); [apply in_flat_map; exists e; split; [exact He|now left]|].
  destruct (H ((e + L / 2 - lo) / w)) as (B & C); [apply in_flat_map; exists e; split; [exact He|right; now left]|].
  rewrite !K in A, B. rewrite !K' in C. split; [exact A|]. split; intro Q.
  - destruct (Rle_dec (e + L / 2) (lo + w * t')) as [G|G]; [|lra]. apply B in G. assert (E : e + L / 2 = lo + w * t) by lra. apply C in E. lra.
  - destruct (Rle_dec (e + L / 2) (lo + w * t)) as [G|G]; [|lra]. apply B in G. assert (E : e + L / 2 = lo + w * t') by lra. apply C in E. lra.
Qed.

Lemma mean_bound (v : list R) K : v <> [] -> (forall x, In x v -> Rabs x <= K) -> Rabs (Rmean v) <= K.
Proof.
  intros Hne H. assert (P : 0 < INR (length v)) by (apply lt_0_INR; destruct v; [congruence|cbn; lia]).
  assert (B : Rabs (Rsum v) <= INR (length v) * K).
  { clear Hne P. induction v as [|a v IH]; [cbn; rewrite Rabs_R0; lra|]. rewrite Rsum_cons. cbn [length]. rewrite S_INR. eapply Rle_trans; [apply Rabs_triang|].
    pose proof (H a (or_introl eq_refl)). specialize (IH (fun x h => H x (or_intror h))). lra. }
  rewrite Rmean_INR. unfold Rdiv. rewrite Rabs_mult, (Rabs_pos_eq (/ _)) by (left; now apply Rinv_0_lt_compat). apply (Rmult_le_reg_r (INR (length v))); [exact P|].
  rewrite Rmult_assoc, Rinv_l, Rmult_1_r by lra. lra.
Qed.
Lemma runmean_list (h : R -> R) l : runmean (fun a => h (nth a l 0)) (length l) = Rmean (map h l).
Proof. unfold runmean. f_equal. induction l as [|x l IH]; [reflexivity|]. cbn [length seq map nth]. f_equal. rewrite <- seq_shift, map_map. exact IH. Qed.
Lemma popvar_centred (h : R -> R) (l : list R) m : l <> [] -> PopVar (map (fun t => h t + m) l) = Rmean (map (fun t => h t * h t) l) - Rmean (map h l) ^ 2.
Proof.
  intros Hne. assert (Hn : INR (length l) <> 0) by (apply not_0_INR; destruct l; [congruence|discriminate]).
  rewrite popvar_quad by (destruct l; [congruence|discriminate]). rewrite !map_length, !Rmean_INR, !map_length, map_map.
  assert (E1 : Rsum (map (fun t => h t + m) l) = Rsum (map h l) + INR (length l) * m) by (clear; induction l as [|x l IH]; [cbn; ring|]; cbn [map length]; rewrite !Rsum_cons, IH, S_INR; ring).
  assert (E2 : Rsum (map (fun t => (h t + m) * (h t + m)) l) = Rsum (map (fun t => h t * h t) l) + 2 * m * Rsum (map h l) + INR (length l) * (m * m)) by (clear; induction l as [|x l IH]; [cbn; ring|]; cbn [map length]; rewrite !Rsum_cons, IH, S_INR; ring).
  rewrite E1, E2. field. exact Hn.
Qed.

(** The value returned from a list of draws is the population variance of the numbers of levels in the windows. *)
Lemma sample_counts (u : list R) lo hi L k tol mn t0 (s : list R -> R) : IsMin u lo -> IsMax u hi -> (1 <= k)%nat ->
  (forall l, length l = k -> sigma_L u L (Z.of_nat k) tol mn (fun j => nth j (t0 :: l) 0) = Ok (Done (s l, false, Z.of_nat k))) ->
  forall l, length l = k -> s l = PopVar (map (fun t => IZR (n_within u L (uniform lo hi t))) l).
Proof.
  intros Hlo Hhi Hk Es l Hl. set (g := fun t => IZR (n_within u L (uniform lo hi t))). specialize (Es l Hl).
  assert (Hu : u <> []) by (destruct Hlo as [H _]; intros ->; destruct H).
  destruct (C35_population_variance u L (Z.of_nat k) tol mn (fun j => nth j (t0 :: l) 0) Hu) as (lo' & hi' & s' & conv & k' & M1 & M2 & E & Hk' & Ep & _).
  rewrite Es in E. injection E as <- <- Ek. apply Nat2Z.inj in Ek. subst k'. cbv zeta in Ep.
  assert (lo' = lo) as ->. { destruct M1 as (A & B), Hlo as (C & D). rewrite List.Forall_forall in B, D. specialize (B _ C). specialize (D _ A). lra. }
  assert (hi' = hi) as ->. { destruct M2 as (A & B), Hhi as (C & D). rewrite List.Forall_forall in B, D. specialize (B _ C). specialize (D _ A). lra. }
  rewrite Ep. f_equal. rewrite <- Hl. apply (map_nth_seq _ l g). intro j. cbn [nth]. unfold g, WindowCount. rewrite n_within_R, <- INR_IZR_INZ. reflexivity.
Qed.
Lemma error_bound (u : list R) lo hi L k tol mn t0 : IsMin u lo -> IsMax u hi -> lo < hi -> 0 <= L -> (1 <= k)%nat -> tol <= 0 ->
  exists s v, (forall l, length l = k -> sigma_L u L (Z.of_nat k) tol mn (fun j => nth j (t0 :: l) 0) = Ok (Done (s l, false, Z.of_nat k))) /\
    IsAverage k (fun l => (s l - NumberVariance u lo hi L) ^ 2) v /\ 0 <= v <= 4 * INR (length u) ^ 4 / INR k.
Proof.
  intros Hlo Hhi Hlh HL Hk Ht. set (g := fun t => IZR (n_within u L (uniform lo hi t))).
  destruct (C121_number_variance u lo hi L Hlo Hhi Hlh HL) as (I1 & I2 & V0). fold g in I1. set (m := MeanCount u lo hi L) in *. set (V := NumberVariance u lo hi L) in *.
  set (N := INR (length u)). assert (HN : 0 <= N) by (unfold N; apply pos_INR).
  assert (Hg : forall t, 0 <= g t <= N). { intro t. unfold g. rewrite n_within_R, <- INR_IZR_INZ. split; [apply pos_INR|apply le_INR, CountIn_le]. }
  assert (Hm : 0 <= m <= N).
  { split; [exact (is_RInt_ge_0 g 0 1 m ltac:(lra) I1 (fun x _ => proj1 (Hg x)))|exact (is_RInt_le g (fun _ => N) 0 1 m N ltac:(lra) I1 (RInt_const01 N) (fun x _ => proj2 (Hg x)))]. }
  set (h := fun t => g t - m). assert (Hh : forall t, Rabs (h t) <= N) by (intro t; specialize (Hg t); apply Rabs_le_between; unfold h; lra).
  assert (J1 : is_RInt h 0 1 0).
  { pose proof (is_RInt_minus (V := R_NormedModule) _ _ _ _ _ _ I1 (RInt_const01 m)) as J. match type of J with is_RInt _ _ _ ?v => assert (E : v = 0) by exact (Rplus_opp_r m); rewrite E in J end. exact J. }
  change (is_RInt (fun t => h t * h t) 0 1 V) in I2.
  assert (Hq : forall t, 0 <= h t * h t <= N ^ 2). { intro t. specialize (Hh t). apply Rabs_le_between in Hh. split; [apply Rle_0_sqr|]. nra. }
  assert (HV : V <= N ^ 2) by exact (is_RInt_le _ (fun _ => N ^ 2) 0 1 V (N ^ 2) ltac:(lra) I2 (RInt_const01 _) (fun x _ => proj2 (Hq x))).
  set (q := fun t => h t * h t - V). assert (Hqa : forall t, Rabs (q t) <= N ^ 2) by (intro t; specialize (Hq t); apply Rabs_le_between; unfold q; lra).
  assert (Q1 : is_RInt q 0 1 0).
  { pose proof (is_RInt_minus (V := R_NormedModule) _ _ _ _ _ _ I2 (RInt_const01 V)) as J. match type of J with is_RInt _ _ _ ?v => assert (E : v = 0) by exact (Rplus_opp_r V); rewrite E in J end. exact J. }
  set (V2 := RInt (fun t => q t * q t) 0 1).
  assert (Q2 : is_RInt (fun t => q t * q t) 0 1 V2).
  { apply (RInt_correct (V := R_CompleteNormedModule)). exact (ex_count u L lo hi (fun x => ((x - m) * (x - m) - V) * ((x - m) * (x - m) - V)) Hlh). }
  assert (HV2 : V2 <= N ^ 4). { refine (is_RInt_le _ (fun _ => N ^ 4) 0 1 V2 (N ^ 4) ltac:(lra) Q2 (RInt_const01 _) (fun t _ => _)). replace (N ^ 4) with ((N ^ 2) ^ 2) by ring. replace (q t * q t) with (q t ^ 2) by ring. now apply pow_maj_Rabs. }
  destruct (C121_expected_refuted u lo hi L k tol mn t0 Hlo Hhi Hlh HL Hk Ht) as (s & Es & _).
  assert (Pk : 0 < INR k) by (apply lt_0_INR; lia).
  assert (Sv : forall l, length l = k -> s l - V = Rmean (map q l) - Rmean (map h l) ^ 2).
  { intros l Hl. assert (Hle : l <> []) by (intros ->; cbn in Hl; lia).
    assert (Eg : s l = PopVar (map g l)) by exact (sample_counts u lo hi L k tol mn t0 s Hlo Hhi Hk Es l Hl).
    rewrite Eg. replace (map g l) with (map (fun t => h t + m) l) by (apply map_ext; intro; unfold h; ring). rewrite popvar_centred by exact Hle.
    assert (Eq : Rmean (map q l) = Rmean (map (fun t => h t * h t) l) - V).
    { rewrite !Rmean_INR, !map_length, Hl. unfold q. rewrite (Rsum_lin R (fun t => h t * h t) l V), Hl. field. lra. }
    rewrite Eq. ring. }
  set (P := fun x : list R => (Rmean (map (fun y => (y - m) * (y - m) - V) x) - Rmean (map (fun y => y - m) x) ^ 2) ^ 2).
  assert (AX : IsAverage k (fun l => (s l - V) ^ 2) (Avg k (fun l => P (map g l)))).
  { eapply average_ext; [|exact (average_exists g (fun f => ex_count u L lo hi f Hlh) k P)]. intros l Hl. cbv beta. rewrite (Sv l Hl). unfold P. rewrite !map_map. reflexivity. }
  set (v := Avg k (fun l => P (map g l))) in *. exists s, v. split; [exact Es|]. split; [exact AX|]. split.
  - apply (average_mono k (fun _ => 0) (fun l => (s l - V) ^ 2) 0 v); [intros; apply pow2_ge_0|apply average_const|exact AX].
  - pose proof (average_means q V2 Q1 Q2 k k k ltac:(lia) ltac:(lia)) as A2. pose proof (average_means h V J1 I2 k k k ltac:(lia) ltac:(lia)) as A1. rewrite Nat.max_id in A1, A2.
    pose proof (average_plus k _ _ _ _ (average_scal k _ _ 2 A2) (average_scal k _ _ (2 * N ^ 2) A1)) as A.
    apply Rle_trans with (2 * (V2 / INR k) + 2 * N ^ 2 * (V / INR k)).
    + refine (average_mono k _ _ _ _ _ AX A). intros l Hl. cbv beta. rewrite (Sv l Hl). rewrite <- Hl, !runmean_list. assert (Hle : map h l <> []) by (destruct l; [cbn in Hl; lia|discriminate]).
      pose proof (mean_bound (map h l) N Hle) as B. assert (B' : Rabs (Rmean (map h l)) <= N) by (apply B; intros x Hx; apply in_map_iff in Hx as (t & <- & _); apply Hh).
      set (a := Rmean (map q l)). set (b := Rmean (map h l)) in *. apply (pow_maj_Rabs _ _ 2) in B'.
      apply Rle_trans with (2 * (a * a) + 2 * (b ^ 2 * b ^ 2)); [pose proof (pow2_ge_0 (a + b ^ 2)); nra|]. apply Rplus_le_compat_l. pose proof (pow2_ge_0 b). nra.
    + apply (Rmult_le_reg_r (INR k)); [exact Pk|]. replace ((2 * (V2 / INR k) + 2 * N ^ 2 * (V / INR k)) * INR k) with (2 * V2 + 2 * N ^ 2 * V) by (field; lra).
      replace (4 * N ^ 4 / INR k * INR k) with (2 * N ^ 4 + 2 * N ^ 2 * N ^ 2) by (field; lra). pose proof (pow2_ge_0 N). assert (N ^ 2 * V <= N ^ 2 * N ^ 2) by (apply Rmult_le_compat_l; lra). lra.
Qed.

(** C129. With exactly k windows at independent uniform centres, the level variance returned has a mean squared error of at most 4 N^4 / k against the number variance
    (mean square minus squared mean of the number of levels in a window, over all centres), N the number of levels. *)
Theorem C129_error : forall (u : list R) lo hi L k tol mn t0, IsMin u lo -> IsMax u hi -> lo < hi -> 0 <= L -> (1 <= k)%nat -> tol <= 0 ->
  exists s v, (forall l, length l = k -> sigma_L u L (Z.of_nat k) tol mn (fun j => nth j (t0 :: l) 0) = Ok (Done (s l, false, Z.of_nat k))) /\
    IsAverage k (fun l => (s l - NumberVariance u lo hi L) ^ 2) v /\ 0 <= v <= 4 * INR (length u) ^ 4 / INR k.
Proof. exact error_bound. Qed.
Print Assumptions C129_error.

(** So the probability of missing the number variance by e or more vanishes as windows are added: the average of the indicator of that event over all choices of the
    centres is at most 4 N^4 / (k e^2). *)
Theorem C129_consistent : forall (u : list R) lo hi L k tol mn t0 e, IsMin u lo -> IsMax u hi -> lo < hi -> 0 <= L -> (1 <= k)%nat -> tol <= 0 -> 0 < e ->
  exists s p, (forall l, length l = k -> sigma_L u L (Z.of_nat k) tol mn (fun j => nth j (t0 :: l) 0) = Ok (Done (s l, false, Z.of_nat k))) /\
    IsAverage k (fun l => if Rle_dec e (Rabs (s l - NumberVariance u lo hi L)) then 1 else 0) p /\ 0 <= p <= 4 * INR (length u) ^ 4 / (INR k * e ^ 2).
Proof.
  intros u lo hi L k tol mn t0 e Hlo Hhi Hlh HL Hk Ht He. destruct (error_bound u lo hi L k tol mn t0 Hlo Hhi Hlh HL Hk Ht) as (s & v & Es & A & B). set (V := NumberVariance u lo hi L) in *.
  set (g := fun t => IZR (n_within u L (uniform lo hi t))). pose proof (sample_counts u lo hi L k tol mn t0 s Hlo Hhi Hk Es) as Sg. fold g in Sg.
  set (P := fun x : list R => if Rle_dec e (Rabs (PopVar x - V)) then 1 else 0).
  assert (AX : IsAverage k (fun l => if Rle_dec e (Rabs (s l - V)) then 1 else 0) (Avg k (fun l => P (map g l)))).
  { eapply average_ext; [|exact (average_exists g (fun f => ex_count u L lo hi f Hlh) k P)]. intros l Hl. cbv beta. unfold P. now rewrite (Sg l Hl). }
  exists s, (Avg k (fun l => P (map g l))). split; [exact Es|]. split; [exact AX|]. assert (Pk : 0 < INR k) by (apply lt_0_INR; lia). assert (Pe : 0 < e ^ 2) by now apply pow_lt. split.
  - refine (average_mono k (fun _ => 0) _ 0 _ _ (average_const k 0) AX). intros l _. cbv beta. destruct (Rle_dec _ _); lra.
  - apply Rle_trans with (/ e ^ 2 * v).
    + refine (average_mono k _ _ _ _ _ AX (average_scal k _ _ (/ e ^ 2) A)). intros l _. cbv beta. apply (Rmult_le_reg_l (e ^ 2)); [exact Pe|]. rewrite <- Rmult_assoc, Rinv_r, Rmult_1_l by lra.
      destruct (Rle_dec _ _) as [G|_]; [|rewrite Rmult_0_r; apply pow2_ge_0]. rewrite Rmult_1_r, <- (pow2_abs (s l - V)). apply pow_incr. lra.
    + apply (Rmult_le_reg_l (e ^ 2)); [exact Pe|]. rewrite <- Rmult_assoc, Rinv_r, Rmult_1_l by lra. replace (e ^ 2 * (4 * INR (length u) ^ 4 / (INR k * e ^ 2))) with (4 * INR (length u) ^ 4 / INR k) by (field; lra). apply B.
Qed.
Print Assumptions C129_consistent.

(** Levels 0, 1, 3, windows of length 2, ten million of them: the number variance is 2/9, and with probability at least 96 in 100 the returned value is within 1/30 of it. *)
Example C129_case : exists s p, (forall l, length l = Z.to_nat 10000000 -> sigma_L [0; 1; 3] 2 10000000 0 0 (fun j => nth j (0 :: l) 0) = Ok (Done (s l, false, 10000000%Z))) /\
  IsAverage (Z.to_nat 10000000) (fun l => if Rle_dec (1 / 30) (Rabs (s l - 2 / 9)) then 1 else 0) p /\ 0 <= p <= 4 / 100.
Proof.
  destruct C121_case as (E & _).
  assert (K : INR (Z.to_nat 10000000) = 10000000) by (rewrite INR_IZR_INZ, Z2Nat.id by lia; reflexivity).
  destruct (C129_consistent [0; 1; 3] 0 3 2 (Z.to_nat 10000000) 0 0 0 (1 / 30)) as (s & p & H1 & H2 & H3); try lra; try lia.
  { split; [cbn; auto|repeat constructor; lra]. } { split; [cbn; auto|repeat constructor; lra]. }
  rewrite Z2Nat.id in H1 by lia. rewrite E in H2. rewrite K in H3. exists s, p. split; [exact H1|]. split; [exact H2|]. cbn [length] in H3. rewrite !S_INR in H3. cbn [INR] in H3. lra.
Qed.
