(** Proofs about time-series eigenvalues. *)
From Coq Require Import List ZArith Bool Arith Lia Reals Lra Sorting.Sorted Sorting.Permutation.
From Verif Require Import Base S_Order S_EigVals S_Trim S_Series M_EigVals M_Series P_Order P_Step P_EigVals P_TrimStat P_TrimFull.
Import ListNotations.
Local Open Scope R_scope.

Lemma filter_keeps {A} (f : A -> bool) (P : A -> Prop) l :
  (forall x, f x = true <-> P x) -> Keeps P l (filter f l).
Proof.
  intro H. induction l as [|x t IH]; cbn [filter]; [constructor|].
  destruct (f x) eqn:E.
  - constructor; [apply H; exact E | exact IH].
  - apply Keeps_no; [|exact IH]. intro P1. apply H in P1. congruence.
Qed.

Lemma keeps_filter {A} (f : A -> bool) (P : A -> Prop) l k :
  (forall x, f x = true <-> P x) -> Keeps P l k -> k = filter f l.
Proof.
  intros H K. induction K as [|x l k Px K IH|x l k Px K IH]; cbn [filter]; [reflexivity| |].
  - assert (f x = true) as -> by (apply H; exact Px). f_equal. exact IH.
  - destruct (f x) eqn:E; [exfalso; apply Px, H, E | exact IH].
Qed.

Lemma Keeps_in {A} (P : A -> Prop) l k x : Keeps P l k -> (In x k <-> In x l /\ P x).
Proof.
  intro K. induction K as [|y l k Py K IH|y l k Py K IH]; cbn [In].
  - tauto.
  - split.
    + intros [->|Hi]; [tauto|]. apply IH in Hi. tauto.
    + intros [[->|Hi] Hp]; [tauto|]. right. apply IH. tauto.
  - rewrite IH. split; [tauto|]. intros [[->|Hi] Hp]; tauto.
Qed.

Lemma fold_max_spec (t : list R) : forall h, Largest (h :: t) (nmax h t).
Proof.
  induction t as [|y t IH]; intro h.
  - split; [left; reflexivity|]. intros x [->|[]]. apply Rle_refl.
  - unfold nmax. cbn [fold_left]. fold (nmax (nmax2 h y) t).
    destruct (IH (nmax2 h y)) as [I1 I2].
    assert (nmax2 h y = h \/ nmax2 h y = y) as Hc by (unfold nmax2; destruct (nlt h y); auto).
    assert (h <= nmax2 h y /\ y <= nmax2 h y) as [H1 H2].
    { unfold nmax2. destruct (nlt h y) eqn:E; [apply nlt_R in E | apply nlt_R_false in E]; lra. }
    split.
    + destruct I1 as [I1|I1].
      * rewrite <- I1. destruct Hc as [->| ->]; cbn; auto.
      * right. right. exact I1.
    + intros x [->|[->|Hx]].
      * eapply Rle_trans; [exact H1|]. apply I2. left. reflexivity.
      * eapply Rle_trans; [exact H2|]. apply I2. left. reflexivity.
      * apply I2. right. exact Hx.
Qed.

Lemma fold_min_spec (t : list R) : forall h, Smallest (h :: t) (nmin h t).
Proof.
  induction t as [|y t IH]; intro h.
  - split; [left; reflexivity|]. intros x [->|[]]. apply Rle_refl.
  - unfold nmin. cbn [fold_left]. fold (nmin (nmin2 h y) t).
    destruct (IH (nmin2 h y)) as [I1 I2].
    assert (nmin2 h y = h \/ nmin2 h y = y) as Hc by (unfold nmin2; destruct (nlt y h); auto).
    assert (nmin2 h y <= h /\ nmin2 h y <= y) as [H1 H2].
    { unfold nmin2. destruct (nlt y h) eqn:E; [apply nlt_R in E | apply nlt_R_false in E]; lra. }
    split.
    + destruct I1 as [I1|I1].
      * rewrite <- I1. destruct Hc as [->| ->]; cbn; auto.
      * right. right. exact I1.
    + intros x [->|[->|Hx]].
      * eapply Rle_trans; [|exact H1]. apply I2. left. reflexivity.
      * eapply Rle_trans; [|exact H2]. apply I2. left. reflexivity.
      * apply I2. right. exact Hx.
Qed.

Lemma Largest_unique l a b : Largest l a -> Largest l b -> a = b.
Proof. intros [A1 A2] [B1 B2]. apply Rle_antisym; auto. Qed.
Lemma Smallest_unique l a b : Smallest l a -> Smallest l b -> a = b.
Proof. intros [A1 A2] [B1 B2]. apply Rle_antisym; auto. Qed.

Lemma arr_max_R (l : list R) m : Largest l m -> arr_max l = Ok m.
Proof.
  destruct l as [|h t]; intros H; [destruct H as [[] _]|].
  cbn. f_equal. eapply Largest_unique; [apply fold_max_spec | exact H].
Qed.
Lemma arr_min_R (l : list R) m : Smallest l m -> arr_min l = Ok m.
Proof.
  destruct l as [|h t]; intros H; [destruct H as [[] _]|].
  cbn. f_equal. eapply Smallest_unique; [apply fold_min_spec | exact H].
Qed.
Lemma arr_max_exists (l : list R) : l <> [] -> exists m, Largest l m /\ arr_max l = Ok m.
Proof. destruct l as [|h t]; [congruence|]. intros _. exists (nmax h t). split; [apply fold_max_spec|reflexivity]. Qed.
Lemma arr_min_exists (l : list R) : l <> [] -> exists m, Smallest l m /\ arr_min l = Ok m.
Proof. destruct l as [|h t]; [congruence|]. intros _. exists (nmin h t). split; [apply fold_min_spec|reflexivity]. Qed.

Lemma SS_filter {A} (R : A -> A -> Prop) (f : A -> bool) l : StronglySorted R l -> StronglySorted R (filter f l).
Proof.
  induction l as [|x t IH]; intro H; [constructor|]. inversion H as [|? ? H1 H2]; subst. cbn [filter].
  destruct (f x); [|auto]. constructor; [auto|]. rewrite Forall_forall in H2 |- *.
  intros y Hy. apply filter_In in Hy. apply H2. tauto.
Qed.

Lemma sort_filter_sorted (f : R -> bool) (l : list R) : Ascending l -> np_sort (filter f l) = filter f l.
Proof. intro H. apply np_sort_id, Ascending_NpLe; [apply notnan_R | apply SS_filter; exact H]. Qed.

Definition mp_scale (shifted : bool) (emax : R) (n : Z) : R := if shifted then 1 - emax / IZR n else 1.

Lemma mp_value vals n t emax selfN selfT nser len largest shifted :
  Ascending vals -> Largest vals emax -> t <> 0%Z ->
  (match nser with Some x => Some x | None => selfN end) = Some n ->
  (match len with Some x => Some x | None => selfT end) = Some t ->
  trim_marchenko_pastur sqrt vals selfN selfT nser len largest shifted =
  Ok (if largest then filter (fun v => nlt (MPUpper (mp_scale shifted emax n) n t) v) vals
      else filter (fun v => nlt (MPLower (mp_scale shifted emax n) n t) v && nlt v (MPUpper (mp_scale shifted emax n) n t)) vals,
      (MPLower (mp_scale shifted emax n) n t, MPUpper (mp_scale shifted emax n) n t)).
Proof.
  intros Hs Hm Ht Hn Ht'. unfold trim_marchenko_pastur.
  assert (match nser with Some _ => nser | None => selfN end = Some n) as -> by (destruct nser; exact Hn).
  assert (match len with Some _ => len | None => selfT end = Some t) as -> by (destruct len; exact Ht').
  rewrite (arr_max_R _ _ Hm). cbn [bind]. apply Z.eqb_neq in Ht. rewrite Ht.
  unfold mp_scale, MPLower, MPUpper, ngt, nsq.
  destruct shifted; cbn [nsub nadd nmul ndiv n1 nofZ Num_R]; rewrite ?Rmult_1_l;
    destruct largest; rewrite sort_filter_sorted by exact Hs; reflexivity.
Qed.

Lemma mp_edges s n t : (0 < n)%Z -> (0 < t)%Z -> 0 <= s -> 0 <= MPLower s n t <= MPUpper s n t.
Proof.
  intros Hn Ht Hs. unfold MPLower, MPUpper. pose proof (sqrt_pos (IZR n / IZR t)) as Hr.
  set (r := sqrt (IZR n / IZR t)) in *. split.
  - apply Rmult_le_pos; [exact Hs|]. apply Rle_0_sqr.
  - apply Rmult_le_compat_l; [exact Hs|]. nra.
Qed.
Lemma mp_edges_neg s n t : s <= 0 -> MPUpper s n t <= MPLower s n t.
Proof.
  intros Hs. unfold MPLower, MPUpper. pose proof (sqrt_pos (IZR n / IZR t)) as Hr.
  set (r := sqrt (IZR n / IZR t)) in *.
  assert (0 <= (-s) * (((1 + r) * (1 + r)) - ((1 - r) * (1 - r)))) by (apply Rmult_le_pos; [lra|]; nra). lra.
Qed.

Lemma shift_sign emax n : (0 < n)%Z -> (emax <= IZR n -> 0 <= 1 - emax / IZR n) /\ (IZR n < emax -> 1 - emax / IZR n < 0).
Proof.
  intro Hn. assert (0 < IZR n) by (apply IZR_lt; exact Hn). split; intro H1.
  - assert (emax / IZR n <= 1); [|lra]. apply (Rmult_le_reg_r (IZR n)); [lra|]. unfold Rdiv. rewrite Rmult_assoc, Rinv_l by lra. lra.
  - assert (1 < emax / IZR n); [|lra]. apply (Rmult_lt_reg_r (IZR n)); [lra|]. unfold Rdiv. rewrite Rmult_assoc, Rinv_l by lra. lra.
Qed.

Lemma and_nlt_R a b v : (nlt a v && nlt v b = true) <-> a < v < b.
Proof. rewrite andb_true_iff, !nlt_R. tauto. Qed.

(** Zero trimming *)
Lemma zero_trim_spec (zeros : zeros_arg R) eigs : eigs <> [] ->
  match zeros with
  | ZHeuristic => exists m k, Smallest eigs m /\ zero_trim true zeros eigs = Ok k /\
       ((m <= 0 /\ Keeps (fun e => -100 * m < e) eigs k /\ Forall (fun e => 0 < e) k) \/ (0 < m /\ k = eigs))
  | ZNegative => exists k, zero_trim true zeros eigs = Ok k /\ Keeps (fun e => 0 < e) eigs k
  | ZFloat z => exists k, zero_trim true zeros eigs = Ok k /\ Keeps (fun e => z < e) eigs k
  | ZBadString => zero_trim true zeros eigs = Raise ValueError
  | ZBadObject => zero_trim true zeros eigs = Raise TypeError
  end.
Proof.
  intro Hne. destruct zeros as [| |z| |]; cbn [zero_trim negb]; try reflexivity.
  - destruct (arr_min_exists eigs Hne) as [m [Hm ->]]. cbn [bind].
    eexists m, _. splits; [exact Hm | reflexivity |].
    unfold ngt. cbn [nle Num_R n0 nmul nofZ]. destruct (Rle_dec m 0) as [Hl|Hl].
    + left. splits; [exact Hl | | ].
      * apply filter_keeps. intro x. apply nlt_R.
      * apply Forall_forall. intros x Hx. apply filter_In in Hx. destruct Hx as [_ Hx]. apply nlt_R in Hx.
        replace (-100) with (-(100)) in Hx by lra. lra.
    + right. split; [lra|]. apply filter_all. apply Forall_forall. intros x Hx. apply nlt_R. destruct Hm as [_ Hm].
      specialize (Hm x Hx). lra.
  - eexists. split; [reflexivity|]. apply filter_keeps. intro x. unfold ngt. apply nlt_R.
  - eexists. split; [reflexivity|]. apply filter_keeps. intro x. unfold ngt. apply nlt_R.
Qed.

Lemma from_correlations_value eigvalsh (a : ndarray R) atol evs :
  (length (shape a) <= 2)%nat -> eigvalsh a = Ok evs ->
  from_correlations eigvalsh a atol = Ok (np_sort (filter (fun e => nlt (nabs e) atol) (data a))).
Proof.
  intros Hs He. unfold from_correlations. destruct (shape a) as [|r [|c [|? ?]]]; cbn in Hs; try lia; try reflexivity.
  destruct (Nat.ltb 1 (Nat.min r c)); [rewrite He|]; reflexivity.
Qed.

Definition rule_arg (r : zero_rule) : zeros_arg R :=
  match r with RuleNegative => ZNegative | RuleFloat z => ZFloat z | RuleHeuristic => ZHeuristic end.

Lemma zero_trim_threshold rule eigs thr : Threshold rule eigs thr ->
  exists k, zero_trim true (rule_arg rule) eigs = Ok k /\ Keeps (fun e => thr < e) eigs k.
Proof.
  destruct rule as [|z|]; cbn [Threshold rule_arg].
  - intros ->. eexists. split; [reflexivity|]. apply filter_keeps. intro x. apply nlt_R.
  - intros ->. eexists. split; [reflexivity|]. apply filter_keeps. intro x. apply nlt_R.
  - intros [m [Hm H]]. cbn [zero_trim negb]. rewrite (arr_min_R _ _ Hm). cbn [bind].
    eexists. split; [reflexivity|]. apply filter_keeps. intro x. unfold ngt. rewrite nlt_R.
    cbn [nle Num_R n0 nmul nofZ]. destruct (Rle_dec m 0) as [Hl|Hl]; destruct H as [[H ->]|[H ->]]; try lra.
    rewrite Rabs_left1 by exact H. replace (-100) with (-(100)) by lra. replace (100 * - m) with (- (100) * m) by lra. tauto.
Qed.

Lemma fts_unfold ds tr (a : ndarray R) r c cov trim zeros axis eigs :
  shape a = [r; c] ->
  forall nN nT d,
  ((axis = 1%Z /\ nN = r /\ nT = c /\ d = data a) \/ (axis = 0%Z /\ nN = c /\ nT = r /\ d = transpose2 r c (data a))) ->
  (0 < nT)%nat ->
  (if Nat.leb nN nT then ds nN nT d cov else tr nN nT d cov) = Ok eigs ->
  forall k, zero_trim trim zeros eigs = Ok k ->
  (k = [] -> from_time_series sqrt ds tr a cov trim zeros axis = Raise ValueError) /\
  (k <> [] -> exists ts emax, from_time_series sqrt ds tr a cov trim zeros axis = Ok ts /\
     ts_vals ts = np_sort k /\ ts_N ts = nN /\ ts_T ts = nT /\ Largest k emax /\
     ts_mp ts = (MPLower 1 (Z.of_nat nN) (Z.of_nat nT), MPUpper 1 (Z.of_nat nN) (Z.of_nat nT)) /\
     ts_mp_shifted ts = (MPUpper (1 - emax / INR nN) (Z.of_nat nN) (Z.of_nat nT), MPLower (1 - emax / INR nN) (Z.of_nat nN) (Z.of_nat nT))).
Proof.
  intros Hs nN nT d Hax HT Hsol k Hk. unfold from_time_series. rewrite Hs.
  assert (negb ((axis =? 0)%Z || (axis =? 1)%Z) = false) as ->
    by (destruct Hax as [[-> _]|[-> _]]; reflexivity).
  assert ((if (axis =? 0)%Z then (c, r, transpose2 r c (data a)) else (r, c, data a)) = (nN, nT, d)) as ->
    by (destruct Hax as [(-> & -> & -> & ->)|(-> & -> & -> & ->)]; reflexivity).
  rewrite Hsol. cbn [bind]. rewrite Hk. cbn [bind]. split.
  - intros ->. reflexivity.
  - intro Hne. destruct (arr_max_exists k Hne) as [m [Hm ->]]. cbn [bind].
    assert (Nat.eqb nT 0 = false) as -> by (apply Nat.eqb_neq; lia).
    eexists _, m. splits; try reflexivity; try exact Hm; cbn [ts_mp ts_mp_shifted];
      unfold MPLower, MPUpper, nsq; cbn [nsub nadd nmul ndiv n1 nofZ Num_R]; rewrite ?INR_IZR_INZ, ?Rmult_1_l; reflexivity.
Qed.

Lemma mp_full : forall vals n t emax selfN selfT nser len shifted,
  Ascending vals -> Largest vals emax -> (0 < n)%Z -> (0 < t)%Z ->
  (match nser with Some x => Some x | None => selfN end) = Some n ->
  (match len with Some x => Some x | None => selfT end) = Some t ->
  exists signal noise lo hi,
    trim_marchenko_pastur sqrt vals selfN selfT nser len true shifted = Ok (signal, (lo, hi)) /\
    trim_marchenko_pastur sqrt vals selfN selfT nser len false shifted = Ok (noise, (lo, hi)) /\
    lo = MPLower (if shifted then 1 - emax / IZR n else 1) n t /\
    hi = MPUpper (if shifted then 1 - emax / IZR n else 1) n t /\
    Keeps (fun v => hi < v) vals signal /\ Keeps (fun v => lo < v < hi) vals noise /\
    (forall v, In v signal -> ~ In v noise) /\
    (shifted = false \/ emax <= IZR n -> 0 <= lo <= hi) /\
    (shifted = true -> IZR n < emax -> noise = [] /\ hi <= lo).
Proof.
  intros vals n t emax selfN selfT nser len shifted Hs Hm Hn Ht Hn' Ht'.
  set (s := mp_scale shifted emax n).
  exists (filter (fun v => nlt (MPUpper s n t) v) vals),
         (filter (fun v => nlt (MPLower s n t) v && nlt v (MPUpper s n t)) vals), (MPLower s n t), (MPUpper s n t).
  splits.
  - rewrite (mp_value vals n t emax) by (auto; lia). reflexivity.
  - rewrite (mp_value vals n t emax) by (auto; lia). reflexivity.
  - reflexivity.
  - reflexivity.
  - apply filter_keeps. intro x. apply nlt_R.
  - apply filter_keeps. intro x. apply and_nlt_R.
  - intros v H1 H2. apply filter_In in H1, H2. destruct H1 as [_ H1], H2 as [_ H2]. apply nlt_R in H1. apply and_nlt_R in H2. lra.
  - intro H. apply mp_edges; auto. unfold s, mp_scale. destruct shifted; [|lra]. destruct H as [H|H]; [discriminate|].
    apply (shift_sign emax n Hn), H.
  - intros -> H. assert (MPUpper s n t <= MPLower s n t) as He.
    { apply mp_edges_neg. unfold s, mp_scale. apply Rlt_le, (shift_sign emax n Hn), H. }
    split; [|exact He]. apply filter_none, Forall_forall. intros x _.
    destruct (nlt (MPLower s n t) x && nlt x (MPUpper s n t)) eqn:E; [|reflexivity]. apply and_nlt_R in E. lra.
Qed.

Lemma nth_flat_map {A} (g : nat -> nat -> A) (d : A) r c : forall j i, (i < r)%nat -> (j < c)%nat ->
  nth (j * r + i) (flat_map (fun j => map (fun i => g i j) (seq 0 r)) (seq 0 c)) d = g i j.
Proof.
  assert (forall c s j i, (i < r)%nat -> (j < c)%nat ->
    nth (j * r + i) (flat_map (fun j => map (fun i => g i j) (seq 0 r)) (seq s c)) d = g i (s + j)%nat) as H.
  { clear c. induction c as [|c IH]; intros s j i Hi Hj; [lia|]. cbn [seq flat_map].
    destruct j as [|j].
    - rewrite app_nth1 by (rewrite map_length, seq_length; lia). cbn [Nat.mul Nat.add].
      rewrite (nth_indep _ d (g 0%nat s)) by (rewrite map_length, seq_length; lia).
      rewrite (map_nth (fun i => g i s)), seq_nth by exact Hi. rewrite Nat.add_0_r. reflexivity.
    - rewrite app_nth2 by (rewrite map_length, seq_length; lia). rewrite map_length, seq_length.
      replace (S j * r + i - r)%nat with (j * r + i)%nat by lia. rewrite IH by lia. f_equal. lia. }
  intros j i Hi Hj. rewrite H by auto. reflexivity.
Qed.

Lemma flat_map_const_len {A B} (f : A -> list B) k l : (forall x, length (f x) = k) -> length (flat_map f l) = (length l * k)%nat.
Proof. intro H. induction l as [|x t IH]; cbn [flat_map]; [reflexivity|]. rewrite app_length, H, IH. reflexivity. Qed.
Lemma transpose2_length {F} {N : Num F} r c (d : list F) : length (transpose2 r c d) = (c * r)%nat.
Proof.
  unfold transpose2. rewrite flat_map_const_len with (k := r); [rewrite seq_length; reflexivity|].
  intro x. rewrite map_length, seq_length. reflexivity.
Qed.
Lemma transpose2_nth {F} {N : Num F} r c (d : list F) i j : (i < r)%nat -> (j < c)%nat ->
  nth (j * r + i) (transpose2 r c d) n0 = nth (i * c + j) d n0.
Proof. intros Hi Hj. unfold transpose2. apply (nth_flat_map (fun i j => nth (i * c + j) d n0) n0 r c j i Hi Hj). Qed.
