(** Property C115: the counts and proportions of a trim iteration. *)
From Coq Require Import List ZArith Bool Arith Lia Reals Lra.
From Verif Require Import Base S_Order S_EigVals S_Trim M_EigVals M_Trim M_TrimCount P_Order P_Step P_EigVals P_Trim P_TrimStat P_TrimFull.
Import ListNotations.
Local Open Scope R_scope.

Lemma count_split (l : list bool) : (length (filter negb l) + length (filter (fun b => b) l) = length l)%nat.
Proof. induction l as [|[] l IH]; cbn; lia. Qed.
Lemma inliers_count {A} (l : list A) : forall c, length l = length c -> length (map fst (filter (fun p => negb (snd p)) (combine l c))) = length (filter negb c).
Proof. induction l as [|x l IH]; intros [|b c] H; cbn in *; try lia. destruct b; cbn; [apply IH; lia|]. f_equal. apply IH. lia. Qed.
Lemma all_inliers_count (c : list bool) : forallb negb c = true <-> length (filter (fun b => b) c) = 0%nat.
Proof. induction c as [|[] c IH]; cbn; [tauto|split; discriminate|exact IH]. Qed.

Lemma nlen_INR (l : list R) : nlen l = INR (length l).
Proof. unfold nlen. cbn. symmetry. apply INR_IZR_INZ. Qed.

(** C115, for every iteration of every report: inliers and outliers add up to the values of the iteration, the values of the next
    iteration are as many as the inliers, and what the next one has removed is what this one does not keep. *)
Theorem C115_counts : forall (U : Type) hbos (fit_all : list R -> result U) values max_trim max_iters its k a,
  (forall id l lab, hbos id l = Ok lab -> length lab = length l) ->
  trim_iters hbos fit_all values max_trim max_iters = Ok its -> nth_error its k = Some a ->
  (inlier_length a + outlier_length a = Z.of_nat (length (ti_eigs a)))%Z /\ (0 < inlier_length a)%Z /\
  (0 < proportion_kept a <= 1) /\
  (forall b, nth_error its (S k) = Some b -> Z.of_nat (length (ti_eigs b)) = inlier_length a /\ proportion_removed b = 1 - proportion_kept a) /\
  (forall b, next_iter hbos fit_all a = Ok b -> proportion_removed b = 1 - proportion_kept a).
Proof.
  intros U hbos fit_all values max_trim max_iters its k a Hlen H Ha.
  destruct (row_ok hbos fit_all Hlen _ _ _ _ H _ _ Ha) as (_ & Ro & (W1 & W2 & W3) & (p & s & Hc) & _ & _).
  assert (length (inliers a) = length (filter negb (ti_clusters a))) as Hin by (apply inliers_count; exact W1).
  assert (0 < length (filter negb (ti_clusters a)))%nat as Hp.
  { destruct W2 as (m & q & Hq & W2). assert (exists u v, ti_clusters a = u ++ false :: v) as (u & v & ->).
    { destruct q as [|q]; [lia|]. destruct W2 as [->| ->]; [exists (repeat true m), (repeat false q)|exists [], (repeat false q ++ repeat true m)]; reflexivity. }
    rewrite filter_app, app_length. cbn. lia. }
  assert (0 < INR (length (ti_origs a))) as Hn.
  { apply (lt_INR 0). rewrite Ro, Hc, !app_length. destruct (ti_eigs a); [congruence|]. cbn. lia. }
  assert (proportion_kept a = INR (length (inliers a)) / INR (length (ti_origs a))) as Hk.
  { unfold proportion_kept, inlier_length. rewrite nlen_INR, Hin. cbn. rewrite <- INR_IZR_INZ. reflexivity. }
  assert (forall b : trimiter R U, ti_origs b = ti_origs a -> ti_eigs b = inliers a -> proportion_removed b = 1 - proportion_kept a) as HR.
  { intros b E1 E2. unfold proportion_removed. rewrite E1, E2, !nlen_INR, Hk. reflexivity. }
  splits.
  - unfold inlier_length, outlier_length. pose proof (count_split (ti_clusters a)). lia.
  - unfold inlier_length. lia.
  - rewrite Hk, Hin. apply Rdiv_lt_0_compat; [apply (lt_INR 0); exact Hp|exact Hn].
  - rewrite Hk, Hin. apply (Rmult_le_reg_r (INR (length (ti_origs a)))); [exact Hn|]. unfold Rdiv. rewrite Rmult_assoc, Rinv_l, Rmult_1_r, Rmult_1_l by lra.
    apply le_INR. pose proof (count_split (ti_clusters a)). rewrite Ro, Hc, !app_length. lia.
  - intros b Hb. pose proof (trim_iters_ok hbos fit_all _ _ _ _ H) as (t0 & rest & -> & H0 & Hl).
    apply (trim_loop_ok hbos fit_all Hlen) in Hl as (_ & Hl & _). destruct (Hl k a b Ha Hb) as ((J1 & J2 & J3 & J4 & J5) & J6).
    split; [rewrite J3, Hin; reflexivity|]. apply HR; assumption.
  - intros b Hb. unfold next_iter in Hb. destruct (new_iter_ok hbos fit_all Hlen _ _ _ _ Hb) as (E1 & E2 & _). apply HR; assumption.
Qed.
Print Assumptions C115_counts.

(** Of one iteration the two proportions are complements only when it has no outliers: proportion_kept looks at what will be left after
    its outliers go, proportion_removed at what is already gone. *)
Theorem C115_complement_refuted : forall (U : Type) hbos (fit_all : list R -> result U) values max_trim max_iters its k a,
  (forall id l lab, hbos id l = Ok lab -> length lab = length l) ->
  trim_iters hbos fit_all values max_trim max_iters = Ok its -> nth_error its k = Some a ->
  proportion_kept a + proportion_removed a = 1 - IZR (outlier_length a) / IZR (Z.of_nat (length values)) /\
  (proportion_kept a + proportion_removed a = 1 <-> is_all_inliers a = true).
Proof.
  intros U hbos fit_all values max_trim max_iters its k a Hlen H Ha.
  destruct (row_ok hbos fit_all Hlen _ _ _ _ H _ _ Ha) as (_ & Ro & (W1 & W2 & W3) & (p & s & Hc) & _ & _).
  assert (length (ti_origs a) = length values) as Hlo by (rewrite Ro; symmetry; apply Permutation.Permutation_length, np_sort_perm).
  assert (0 < INR (length values)) as Hn.
  { rewrite <- Hlo. apply (lt_INR 0). rewrite Ro, Hc, !app_length. destruct (ti_eigs a); [congruence|]. cbn. lia. }
  assert (proportion_kept a + proportion_removed a = 1 - IZR (outlier_length a) / IZR (Z.of_nat (length values))) as E.
  { unfold proportion_kept, proportion_removed, inlier_length, outlier_length. rewrite !nlen_INR, Hlo. cbn. rewrite <- !INR_IZR_INZ, W1, <- (count_split (ti_clusters a)), plus_INR. field. lra. }
  split; [exact E|]. rewrite E. unfold is_all_inliers. rewrite all_inliers_count. unfold outlier_length. rewrite <- !INR_IZR_INZ. split; intro Q.
  - assert (INR (length (filter (fun b => b) (ti_clusters a))) / INR (length values) = 0) as Z by lra.
    apply INR_eq. cbn. apply (Rmult_eq_reg_r (/ INR (length values))); [|apply Rinv_neq_0_compat; lra]. rewrite Rmult_0_l. exact Z.
  - rewrite Q. cbn. unfold Rdiv. ring.
Qed.
Print Assumptions C115_complement_refuted.

(** Five values of which the detector flags the largest: kept 4/5, removed 0. *)
Definition c115_hbos (id : nat) (l : list R) : result (list bool) := Ok (map (fun x => nlt 10 x) l).
Example C115_case : exists its a, trim_iters c115_hbos (fun _ => Ok tt) [1; 2; 3; 4; 90] 1 3 = Ok its /\ nth_error its 0 = Some a /\
  inlier_length a = 4%Z /\ outlier_length a = 1%Z /\ proportion_kept a = 4 / 5 /\ proportion_removed a = 0.
Proof.
  assert (np_sort [1; 2; 3; 4; 90] = [1; 2; 3; 4; 90]) as Es.
  { apply np_sort_id, Ascending_NpLe; [apply notnan_R|]. apply StronglySorted_R. repeat (constructor; [|repeat constructor; lra]). constructor. }
  assert (c115_hbos 0 [1; 2; 3; 4; 90] = Ok [false; false; false; false; true]) as E0.
  { unfold c115_hbos. cbn [map]. cbn. repeat (destruct (Rlt_dec _ _); try lra). reflexivity. }
  assert (c115_hbos 1 [1; 2; 3; 4] = Ok [false; false; false; false]) as E1.
  { unfold c115_hbos. cbn [map]. cbn. repeat (destruct (Rlt_dec _ _); try lra). reflexivity. }
  set (t0 := mkiter [1; 2; 3; 4; 90] [1; 2; 3; 4; 90] 0 [false; false; false; false; true] tt).
  set (t1 := mkiter [1; 2; 3; 4; 90] [1; 2; 3; 4] 1 [false; false; false; false] tt).
  exists [t0; t1], t0. split.
  - unfold trim_iters. rewrite Es. unfold new_iter at 1. rewrite E0. cbn [bind]. change (outlier_labels [false; false; false; false; true]) with (Ok [false; false; false; false; true]). cbn [bind].
    change (Z.to_nat 3) with 3%nat. cbn [trim_loop]. unfold next_iter at 1. cbn [ti_id ti_origs]. change (inliers _) with [1; 2; 3; 4]. unfold new_iter at 1. rewrite E1. cbn [bind].
    change (outlier_labels [false; false; false; false]) with (Ok [false; false; false; false]). cbn [bind].
    assert (ngt (proportion_removed (mkiter [1; 2; 3; 4; 90] [1; 2; 3; 4] 1 [false; false; false; false] tt)) 1 = false) as ->.
    { unfold proportion_removed, ngt. cbn. destruct (Rlt_dec _ _); [lra|reflexivity]. }
    reflexivity.
  - splits; try reflexivity; unfold proportion_kept, proportion_removed; cbn; lra.
Qed.
