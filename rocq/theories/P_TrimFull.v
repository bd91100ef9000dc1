(** The statements of T_Trim, proved from P_Trim and P_TrimStat. *)
From Coq Require Import List ZArith Bool Arith Lia Reals Lra Sorting.Sorted Sorting.Permutation.
From Verif Require Import Base S_Order S_EigVals S_Trim M_EigVals M_Trim P_Order P_Step P_EigVals P_Trim P_TrimStat.
Import ListNotations.

Lemma run_unique_l p p' r r' : repeat true p ++ false :: r = repeat true p' ++ false :: r' -> p = p' /\ r = r'.
Proof.
  revert p'. induction p as [|p IH]; intros [|p'] H; try discriminate.
  - now injection H as ->.
  - injection H as H. destruct (IH _ H). auto.
Qed.
Lemma run_unique_r p p' r r' : r ++ false :: repeat true p = r' ++ false :: repeat true p' -> p = p' /\ r = r'.
Proof.
  assert (Hrev : forall n, rev (repeat true n) = repeat true n).
  { induction n; auto. cbn [repeat rev]. rewrite IHn. apply repeat_snoc. }
  intro H. apply (f_equal (@rev bool)) in H. rewrite !rev_app_distr in H. cbn [rev] in H. rewrite !Hrev, <- !app_assoc in H.
  cbn [app] in H. apply run_unique_l in H as [-> H]. split; auto.
  apply (f_equal (@rev bool)) in H. now rewrite !rev_involutive in H.
Qed.
Lemma run_not_all p r n : repeat true p ++ false :: r <> repeat true n.
Proof.
  intro H. assert (In false (repeat true n)) by (rewrite <- H; apply in_or_app; right; now left).
  apply repeat_spec in H0. discriminate.
Qed.
Lemma run_not_all_r p r n : r ++ false :: p <> repeat true n.
Proof.
  intro H. assert (In false (repeat true n)) by (rewrite <- H; apply in_or_app; right; now left).
  apply repeat_spec in H0. discriminate.
Qed.

Lemma labels_full (lab : list bool) : lab <> [] ->
  exists r, outlier_labels lab = Ok r /\ length r = length lab /\ OneEnd r /\
    (forall i, nth_error r i = Some true -> nth_error lab i = Some true) /\
    (head_opt lab = Some false -> last_opt lab = Some false -> r = repeat false (length lab)) /\
    (forall p rest, (0 < p)%nat -> lab = repeat true p ++ false :: rest ->
       r = repeat true p ++ repeat false (S (length rest))) /\
    (forall p rest, (0 < p)%nat -> head_opt lab = Some false -> lab = rest ++ false :: repeat true p ->
       r = repeat false (S (length rest)) ++ repeat true p) /\
    (lab = repeat true (length lab) -> r = repeat false (length lab)).
Proof.
  intro Hne. destruct (outlier_labels_cases lab Hne) as (r & Er & Hr). exists r.
  split; [exact Er|]. split; [now apply labels_length|]. split; [now apply (labels_one_end lab)|].
  split; [now apply labels_le|]. clear Er Hne.
  destruct Hr as [n|p rest Hp|p rest Hp Hh|l Hh Hl]; splits.
  - discriminate.
  - intros p rest _ H. exfalso. symmetry in H. now apply run_not_all in H.
  - discriminate.
  - now rewrite repeat_length.
  - destruct p; [lia|discriminate].
  - intros p' rest' _ H. apply run_unique_l in H as [-> ->]. reflexivity.
  - intros p' rest' _ H. destruct p; [lia|discriminate].
  - intro H. now apply run_not_all in H.
  - intros _ H. exfalso. rewrite last_opt_app in H by discriminate. destruct p as [|p]; [lia|].
    change (false :: repeat true (S p)) with ([false] ++ repeat true (S p)) in H.
    rewrite last_opt_app, last_opt_repeat in H by discriminate. discriminate.
  - intros p' rest' Hp' H. exfalso. destruct p' as [|p']; [lia|]. destruct rest; cbn in *; congruence.
  - intros p' rest' _ _ H. apply run_unique_r in H as [-> ->]. reflexivity.
  - intro H. now apply run_not_all_r in H.
  - auto.
  - intros p rest Hp ->. destruct p; [lia|discriminate].
  - intros p rest Hp _ ->. exfalso. rewrite last_opt_app in Hl by discriminate. destruct p as [|p]; [lia|].
    change (false :: repeat true (S p)) with ([false] ++ repeat true (S p)) in Hl.
    rewrite last_opt_app, last_opt_repeat in Hl by discriminate. discriminate.
  - intros _. reflexivity.
Qed.

Section Generic.
Context {F U : Type} {N : Num F}.
Variable hbos : nat -> list F -> result (list bool).
Variable fit_all : list F -> result U.

Lemma rows_shrink values max_trim max_iters its :
  (forall id l lab, hbos id l = Ok lab -> length lab = length l) ->
  trim_iters hbos fit_all values max_trim max_iters = Ok its ->
  forall k a b, nth_error its k = Some a -> nth_error its (S k) = Some b ->
    ((0 < k)%nat \/ In true (ti_clusters a)) -> (length (ti_eigs b) < length (ti_eigs a))%nat.
Proof.
  intros Hlen H k a b Ha Hb Hor. destruct (pair_ok hbos fit_all Hlen _ _ _ _ H k a b Ha Hb) as (_ & _ & H3 & H4).
  apply H3. destruct Hor as [Hk|Hin]; auto. unfold is_all_inliers. apply not_true_is_false. intro K.
  rewrite forallb_forall in K. apply K in Hin. discriminate.
Qed.

Context {L : OrdLaws F N}.
Hypothesis Hlen : forall id l lab, hbos id l = Ok lab -> length lab = length l.

Lemma trim_iterations_full values max_trim max_iters its :
  trim_iters hbos fit_all values max_trim max_iters = Ok its ->
  (1 <= Z.of_nat (length its) <= Z.max 0 max_iters + 1)%Z /\
  (exists t0, nth_error its 0 = Some t0 /\ Permutation values (ti_eigs t0) /\ AscendingNaNLast (ti_eigs t0) /\
     forall k t, nth_error its k = Some t ->
       ti_id t = k /\ ti_eigs t <> [] /\ Contiguous (ti_eigs t0) (ti_eigs t) /\ ti_origs t = ti_eigs t0) /\
  (forall k a b, nth_error its k = Some a -> nth_error its (S k) = Some b -> EndTrim (ti_eigs a) (ti_eigs b)) /\
  (forall k t, nth_error its (S k) = Some t -> ngt (proportion_removed t) max_trim = false) /\
  ((Z.of_nat (length its) < Z.max 0 max_iters + 1)%Z -> forall l, last_opt its = Some l ->
     ((1 < length its)%nat /\ is_all_inliers l = true) \/
     exists nx, next_iter hbos fit_all l = Ok nx /\ ngt (proportion_removed nx) max_trim = true).
Proof.
  intro H. pose proof (row_ok hbos fit_all Hlen _ _ _ _ H) as Hrow.
  pose proof (pair_ok hbos fit_all Hlen _ _ _ _ H) as Hpair.
  apply trim_iters_ok in H as (t0 & rest & -> & H0 & Hl).
  destruct (trim_loop_ok hbos fit_all Hlen _ _ _ _ Hl) as (L1 & _ & L3).
  split; [cbn [length]; lia|]. split; [|split; [|split]].
  - exists t0. destruct (Hrow 0%nat t0 eq_refl) as (_ & _ & _ & _ & R5 & _). rewrite (R5 eq_refl).
    destruct (np_sort_spec values). splits; auto. intros k t Ht.
    destruct (Hrow k t Ht) as (R1 & R2 & (_ & _ & R3) & R4 & _). splits; auto.
  - intros k a b Ha Hb. now destruct (Hpair k a b Ha Hb).
  - intros k t Ht. destruct (Hrow _ _ Ht) as (_ & _ & _ & _ & _ & R). apply R. lia.
  - intros Hlt l Hll. cbn [length] in Hlt. destruct (L3 ltac:(lia) l Hll) as [[A B]|A]; [left|right; exact A].
    split; auto. destruct rest; [congruence|cbn; lia].
Qed.

Lemma indices_inclusive values max_trim max_iters its k t :
  Forall NotNaN values -> Distinct values ->
  trim_iters hbos fit_all values max_trim max_iters = Ok its -> nth_error its k = Some t ->
  exists s e, trim_indices t = Ok (s, e) /\ (0 <= s <= e)%Z /\ (e < Z.of_nat (length values))%Z /\
    ti_eigs t = py_slice (ti_origs t) s (e + 1) /\
    (forall j, nth_error (ti_eigs t) j = if (Z.of_nat j <=? e - s)%Z then nth_error (ti_origs t) (Z.to_nat s + j) else None).
Proof.
  intros Hn Hd H Hk. destruct (row_located hbos fit_all Hlen _ _ _ _ _ _ Hn Hd H Hk) as (p & s & H1 & H2 & H3 & _).
  destruct (row_ok hbos fit_all Hlen _ _ _ _ H _ _ Hk) as (_ & R2 & _).
  assert (Hl : length values = (length p + (length (ti_eigs t) + length s))%nat).
  { rewrite <- (np_sort_length values), <- R2, H1, !app_length. reflexivity. }
  assert (0 < length (ti_eigs t))%nat by (destruct (ti_eigs t); [congruence|cbn; lia]).
  do 2 eexists. split; [exact H3|].
  assert (E : ti_eigs t = py_slice (ti_origs t) (Z.of_nat (length p)) (Z.of_nat (length p) + Z.of_nat (length (ti_eigs t)) - 1 + 1)).
  { rewrite H1. replace (_ - 1 + 1)%Z with (Z.of_nat (length p + length (ti_eigs t))) by lia. now rewrite py_slice_app. }
  splits; try lia; auto.
  intro j. rewrite E at 1. rewrite py_slice_nth.
  assert (Hlo : length (ti_origs t) = length values) by now rewrite R2, np_sort_length.
  rewrite !py_clip_id by lia.
  replace (Z.of_nat (length p) + Z.of_nat (length (ti_eigs t)) - 1 + 1 - Z.of_nat (length p))%Z with (Z.of_nat (length (ti_eigs t))) by lia.
  replace (Z.of_nat (length p) + Z.of_nat (length (ti_eigs t)) - 1 - Z.of_nat (length p))%Z with (Z.of_nat (length (ti_eigs t)) - 1)%Z by lia.
  destruct (Z.ltb_spec (Z.of_nat j) (Z.of_nat (length (ti_eigs t)))), (Z.leb_spec (Z.of_nat j) (Z.of_nat (length (ti_eigs t)) - 1)); try lia; auto.
Qed.

Lemma documented_slice values max_trim max_iters its k t :
  Forall NotNaN values -> Distinct values ->
  trim_iters hbos fit_all values max_trim max_iters = Ok its -> nth_error its k = Some t ->
  exists s e v, trim_indices t = Ok (s, e) /\ ti_eigs t = py_slice (ti_origs t) s e ++ [v].
Proof.
  intros Hn Hd H Hk. destruct (row_located hbos fit_all Hlen _ _ _ _ _ _ Hn Hd H Hk) as (p & s & H1 & H2 & H3 & _).
  destruct (exists_last (l := ti_eigs t) H2) as (e' & v & E).
  do 3 eexists. split; [exact H3|]. rewrite E at 1. f_equal. rewrite H1, E, app_length. cbn [length].
  replace (Z.of_nat (length p) + Z.of_nat (length e' + 1) - 1)%Z with (Z.of_nat (length p + length e')) by lia.
  replace (p ++ (e' ++ [v]) ++ s) with (p ++ e' ++ (v :: s)) by now rewrite <- !app_assoc.
  now rewrite py_slice_app.
Qed.

Lemma use_iteration values max_trim max_iters its (i : Z) :
  trim_iters hbos fit_all values max_trim max_iters = Ok its ->
  let n := Z.of_nat (length its) in
  ((0 <= i < n)%Z -> exists t, nth_error its (Z.to_nat i) = Some t /\ use_trim_iteration its i = Ok (ti_eigs t)) /\
  ((- n <= i < 0)%Z -> exists t, nth_error its (Z.to_nat (n + i)) = Some t /\ use_trim_iteration its i = Ok (ti_eigs t)) /\
  ((n <= i)%Z -> use_trim_iteration its i = Raise ValueError) /\
  ((i < - n)%Z -> use_trim_iteration its i = Raise IndexError).
Proof.
  intros H n. pose proof (row_ok hbos fit_all Hlen _ _ _ _ H) as Hrow.
  assert (Hsort : forall k t, nth_error its k = Some t -> np_sort (ti_eigs t) = ti_eigs t).
  { intros k t Ht. destruct (Hrow k t Ht) as (_ & _ & _ & (p & s & Hc) & _). apply np_sort_id.
    assert (Hs : StronglySorted NpLe (np_sort values)) by apply np_sort_sorted. rewrite Hc in Hs.
    apply (SS_skipn _ _ (length p)) in Hs. rewrite skipn_app, skipn_all, Nat.sub_diag in Hs. cbn [app skipn] in Hs.
    apply (SS_firstn _ _ (length (ti_eigs t))) in Hs. rewrite firstn_app, firstn_all, Nat.sub_diag in Hs. cbn [firstn] in Hs.
    now rewrite app_nil_r in Hs. }
  unfold use_trim_iteration. fold n. splits; intro Hi.
  - assert ((n - 1 <? i)%Z = false) as -> by (apply Z.ltb_ge; lia). rewrite py_get_in by (fold n; lia).
    destruct (nth_error its (Z.to_nat i)) as [t|] eqn:E; [|apply nth_error_None in E; unfold n in *; lia].
    exists t. split; auto. f_equal. eauto.
  - assert ((n - 1 <? i)%Z = false) as -> by (apply Z.ltb_ge; lia). rewrite py_get_neg by (fold n; lia). fold n.
    destruct (nth_error its (Z.to_nat (n + i))) as [t|] eqn:E; [|apply nth_error_None in E; unfold n in *; lia].
    exists t. split; auto. f_equal. eauto.
  - assert ((n - 1 <? i)%Z = true) as -> by (apply Z.ltb_lt; lia). reflexivity.
  - assert (0 <= n)%Z by (unfold n; lia).
    assert ((n - 1 <? i)%Z = false) as -> by (apply Z.ltb_ge; lia). now rewrite py_get_low by (fold n; lia).
Qed.
End Generic.

Lemma max_trim_respected (U : Type) hbos (fit_all : list R -> result U) values (max_trim : R) max_iters its :
  (forall id l lab, hbos id l = Ok lab -> length lab = length l) -> (0 <= max_trim)%R ->
  trim_iters hbos fit_all values max_trim max_iters = Ok its ->
  forall k t, nth_error its k = Some t ->
    (INR (length values - length (ti_eigs t)) <= max_trim * INR (length values))%R.
Proof.
  intros Hlen Hm H k t Ht. destruct (row_ok hbos fit_all Hlen _ _ _ _ H _ _ Ht) as (_ & R2 & (_ & _ & R3) & (p & s & R4) & R5 & R6).
  assert (Hl : length values = (length p + (length (ti_eigs t) + length s))%nat).
  { rewrite <- (np_sort_length values), R4, !app_length. reflexivity. }
  assert (0 < length (ti_eigs t))%nat by (destruct (ti_eigs t); [congruence|cbn; lia]).
  assert (Hn : (0 < INR (length values))%R) by (apply lt_0_INR; lia).
  destruct k as [|k].
  - rewrite R5, np_sort_length, Nat.sub_diag by auto. cbn. apply Rmult_le_pos; lra.
  - specialize (R6 ltac:(lia)). apply nlt_R_false in R6. unfold proportion_removed, nlen in R6.
    rewrite R2, np_sort_length in R6. cbn [nsub n1 ndiv nofZ Num_R] in R6. rewrite <- !INR_IZR_INZ in R6.
    rewrite minus_INR by lia.
    apply (Rmult_le_compat_r (INR (length values))) in R6; [|lra].
    replace ((1 - INR (length (ti_eigs t)) / INR (length values)) * INR (length values))%R
      with (INR (length values) - INR (length (ti_eigs t)))%R in R6 by (field; lra). exact R6.
Qed.

Lemma rows_repeat (U : Type) hbos (fit_all : list R -> result U) values (max_trim : R) max_iters its t0 :
  (forall id l lab, hbos id l = Ok lab -> length lab = length l) ->
  (0 <= max_trim)%R -> (0 < max_iters)%Z ->
  trim_iters hbos fit_all values max_trim max_iters = Ok its ->
  nth_error its 0 = Some t0 -> ~ In true (ti_clusters t0) ->
  exists t1, nth_error its 1 = Some t1 /\ ti_eigs t1 = ti_eigs t0.
Proof.
  intros Hlen Hm Hi H Ht0 Hc.
  destruct (row_ok hbos fit_all Hlen _ _ _ _ H _ _ Ht0) as (_ & R2 & (W1 & W2 & W3) & _ & R5 & _). specialize (R5 eq_refl).
  assert (Hall : forallb negb (ti_clusters t0) = true).
  { apply forallb_forall. intros [] Hx; [contradiction|reflexivity]. }
  assert (Hin : inliers t0 = ti_eigs t0).
  { rewrite inliers_mask. now destruct (one_end_mask (ti_eigs t0) _ W1 W2) as (_ & _ & M & _); auto. }
  pose proof (pair_ok hbos fit_all Hlen _ _ _ _ H 0%nat t0) as Hp.
  apply trim_iters_ok in H as (t0' & rest & -> & H0 & Hl). injection Ht0 as ->.
  destruct rest as [|t1 rest].
  - exfalso. destruct (trim_loop_ok hbos fit_all Hlen _ _ _ _ Hl) as (_ & _ & L3). cbn [length] in L3.
    destruct (L3 ltac:(lia) t0 eq_refl) as [[A _]|(nx & Hnx & Hgt)]; [congruence|].
    unfold next_iter in Hnx. rewrite Hin in Hnx. destruct (new_iter_ok hbos fit_all Hlen _ _ _ _ Hnx) as (N1 & N2 & _).
    apply nlt_R in Hgt. unfold proportion_removed, nlen in Hgt. rewrite N1, N2, R2, R5 in Hgt.
    cbn [nsub n1 ndiv nofZ Num_R] in Hgt. unfold Rdiv in Hgt. rewrite Rinv_r in Hgt; [lra|].
    rewrite R5 in W3. apply not_0_IZR. destruct (np_sort values); [congruence|cbn [length]; lia].
  - exists t1. split; auto. destruct (Hp t1 eq_refl eq_refl) as (_ & P2 & _). apply P2. exact Hall.
Qed.

Lemma percentages (U : Type) hbos (fit_all : list R -> result U) values (max_trim : R) max_iters its k t :
  (forall id l lab, hbos id l = Ok lab -> length lab = length l) -> Distinct values ->
  trim_iters hbos fit_all values max_trim max_iters = Ok its -> nth_error its k = Some t ->
  exists lo hi,
    lower_percent_removed (fun x => x) t = Ok lo /\ upper_percent_removed (fun x => x) t = Ok hi /\
    (lo + hi = percent_removed (fun x => x) t)%R /\ (0 <= lo)%R /\ (0 <= hi)%R /\
    (k = 0%nat -> lo = 0%R /\ hi = 0%R) /\
    (k = 1%nat -> (length (ti_eigs t) < length values)%nat -> (lo = 0 /\ 0 < hi)%R \/ (0 < lo /\ hi = 0)%R).
Proof.
  intros Hlen Hd H Ht.
  destruct (row_located hbos fit_all Hlen _ _ _ _ _ _ (notnan_R values) Hd H Ht) as (p & s & H1 & H2 & H3 & H4 & b & H5 & H6).
  destruct (row_ok hbos fit_all Hlen _ _ _ _ H _ _ Ht) as (_ & R2 & _ & _ & R5 & _).
  assert (Hl : length values = (length p + (length (ti_eigs t) + length s))%nat).
  { rewrite <- (np_sort_length values), <- R2, H1, !app_length. reflexivity. }
  assert (Hlo : length (ti_origs t) = length values) by now rewrite R2, np_sort_length.
  assert (Hpos : (0 < length (ti_eigs t))%nat) by (destruct (ti_eigs t); [congruence|cbn; lia]).
  assert (Hn : (0 < IZR (Z.of_nat (length values)))%R) by (apply IZR_lt; lia).
  unfold lower_percent_removed, upper_percent_removed, percent_removed, nlen.
  rewrite py_get_0, py_get_m1, H5, H6, Hlo.
  destruct (ti_eigs t) as [|a e] eqn:Ee; [congruence|]. cbn [head_opt nth_error]. rewrite H4.
  cbn [nmul nsub ndiv nofZ Num_R].
  do 2 eexists. split; [reflexivity|]. split; [reflexivity|].
  assert (Hsum : (IZR (Z.of_nat (length values)) = IZR (Z.of_nat (length p)) + IZR (Z.of_nat (length (a :: e))) + IZR (Z.of_nat (length s)))%R).
  { rewrite Hl, !Nat2Z.inj_add, !plus_IZR. lra. }
  assert (Hnn : forall m, (0 <= 100 * IZR (Z.of_nat m) / IZR (Z.of_nat (length values)))%R).
  { intro m. apply Rmult_le_pos; [apply Rmult_le_pos; [lra|apply IZR_le; lia]|apply Rlt_le, Rinv_0_lt_compat; lra]. }
  assert (Hpp : forall m, (0 < m)%nat -> (0 < 100 * IZR (Z.of_nat m) / IZR (Z.of_nat (length values)))%R).
  { intros m Hm. apply Rmult_lt_0_compat; [apply Rmult_lt_0_compat; [lra|apply IZR_lt; lia]|apply Rinv_0_lt_compat; lra]. }
  assert (Hz : forall m, m = 0%nat -> (100 * IZR (Z.of_nat m) / IZR (Z.of_nat (length values)) = 0)%R).
  { intros m ->. cbn. field. lra. }
  splits; auto.
  - replace (IZR (Z.of_nat (length (a :: e)))) with (IZR (Z.of_nat (length values)) - IZR (Z.of_nat (length p)) - IZR (Z.of_nat (length s)))%R by lra.
    field. lra.
  - intros ->. apply (f_equal (@length R)) in R5; auto. rewrite np_sort_length in R5. split; apply Hz; lia.
  - intros -> Hlt.
    destruct its as [|t0 its]; [discriminate|].
    destruct (pair_ok hbos fit_all Hlen _ _ _ _ H 0%nat t0 t eq_refl Ht) as ((r & Hr) & _).
    destruct (row_ok hbos fit_all Hlen _ _ _ _ H 0%nat t0 eq_refl) as (_ & _ & _ & _ & Q5 & _). specialize (Q5 eq_refl).
    rewrite Q5, <- R2, H1, Ee in Hr.
    (* in a list of distinct values, the position of the kept piece is unique *)
    assert (Hd' : Distinct (np_sort values)) by (eapply Distinct_perm; [apply np_sort_perm|auto]).
    rewrite <- R2, H1 in Hd'.
    destruct Hr as [Hr|Hr].
    + assert (Hs0 : length s = 0%nat).
      { assert (Hn' : Forall NotNaN (p ++ (a :: e) ++ s)) by apply notnan_R.
        pose proof (locate_first p (a :: e) s a Hn' Hd' eq_refl) as K1.
        rewrite Hr in Hn', Hd', K1. rewrite <- (app_nil_r (a :: e)) in Hn', Hd', K1.
        pose proof (locate_first r (a :: e) [] a Hn' Hd' eq_refl) as K2.
        apply (f_equal (@length R)) in Hr. rewrite !app_length in Hr. lia. }
      right. split; [apply Hpp; lia|now apply Hz].
    + assert (Hp0 : length p = 0%nat).
      { assert (Hn' : Forall NotNaN (p ++ (a :: e) ++ s)) by apply notnan_R.
        pose proof (locate_first p (a :: e) s a Hn' Hd' eq_refl) as K1.
        rewrite Hr in Hn', Hd', K1.
        pose proof (locate_first [] (a :: e) r a Hn' Hd' eq_refl) as K2. cbn [app] in K2. cbn [length] in K2.
        assert (Z.of_nat (length p) = 0%Z) by (rewrite <- K1; exact K2). lia. }
      left. split; [now apply Hz|apply Hpp; lia].
Qed.

Lemma score_full (u : list R) (a b : R) : (3 <= length u)%nat ->
  head_opt u = Some a -> last_opt u = Some b ->
  exists mean var score, evaluate_unfolding u = (mean, var, score) /\
    mean = ((b - a) / (INR (length u) - 1))%R /\ var = Rvar1 (Gaps u) /\ (0 <= var)%R /\
    score = ((var - 0.286) / 0.286 + (mean - 1) / 2)%R /\
    (forall d, evaluate_unfolding (map (fun x => x + d)%R u) = evaluate_unfolding u) /\
    (mean = 1%R -> var = 0.286%R -> score = 0%R) /\
    (-1 + (mean - 1) / 2 <= score)%R.
Proof.
  intros Hl Ha Hb. unfold evaluate_unfolding. rewrite ndiff_Gaps. do 3 eexists. split; [reflexivity|].
  assert (Hm : nmean (Gaps u) = ((b - a) / (INR (length u) - 1))%R).
  { rewrite nmean_R. unfold Rmean. rewrite (Gaps_sum _ _ _ Ha Hb), Gaps_length, minus_INR by lia. reflexivity. }
  assert (Hv : (0 <= Rvar1 (Gaps u))%R) by (apply Rvar1_nonneg; rewrite Gaps_length; lia).
  assert (Hs : forall m v, nadd (ndiv (nsub v goe_variance) goe_variance) (nmul (ndiv n1 (nofZ 2)) (ndiv (nsub m goe_mean) goe_mean))
     = ((v - 0.286) / 0.286 + (m - 1) / 2)%R).
  { intros m v. unfold goe_variance, goe_mean. cbn [nadd nsub nmul ndiv n1 nofZ Num_R]. replace 0.286%R with (286 / 1000)%R by lra. field. }
  rewrite Hs, nvar1_R. splits; auto.
  - intro d. rewrite ndiff_Gaps, Gaps_shift, Hs, nvar1_R. reflexivity.
  - intros -> ->. lra.
  - lra.
Qed.

(** ** Selection *)
Lemma Rsum_perm (l l' : list R) : Permutation l l' -> Rsum l = Rsum l'.
Proof. induction 1; cbn; lra. Qed.
Lemma Rmean_perm (l l' : list R) : Permutation l l' -> Rmean l = Rmean l'.
Proof. intro H. unfold Rmean. now rewrite (Rsum_perm _ _ H), (Permutation_length H). Qed.
Lemma filter_perm {A} (f : A -> bool) (l l' : list A) : Permutation l l' -> Permutation (filter f l) (filter f l').
Proof.
  induction 1 as [|x l l' Hp IH|x y l|l m n H1 IH1 H2 IH2]; cbn; auto.
  - destruct (f x); auto.
  - destruct (f x), (f y); auto. apply perm_swap.
  - now rewrite IH1.
Qed.
Lemma filter_all {A} (f : A -> bool) (l : list A) : Forall (fun x => f x = true) l -> filter f l = l.
Proof. induction 1 as [|x l H1 H2 IH]; cbn; auto. now rewrite H1, IH. Qed.
Lemma filter_none {A} (f : A -> bool) (l : list A) : Forall (fun x => f x = false) l -> filter f l = [].
Proof. induction 1 as [|x l H1 H2 IH]; cbn; auto. now rewrite H1. Qed.

Lemma masked_mean_complete (l : list R) m : l <> [] -> MeanBelowP90 l m -> masked_mean l = Some m.
Proof.
  intros Hne (q & below & above & Hq & Hp & Hb & Fb & Fa & ->).
  unfold masked_mean. destruct (quantile90_R l Hne) as (q' & -> & Hq').
  rewrite (Percentile90_unique _ _ _ Hq' Hq).
  assert (Hperm : Permutation (filter (fun x => nlt x q) l) below).
  { rewrite (filter_perm _ _ _ Hp), filter_app, filter_all, filter_none, app_nil_r; auto.
    - eapply Forall_impl; [|exact Fa]. intros x Hx. now apply nlt_R_false.
    - eapply Forall_impl; [|exact Fb]. intros x Hx. now apply nlt_R. }
  destruct (filter (fun x => nlt x q) l) as [|a t] eqn:E.
  - apply Permutation_nil in Hperm. congruence.
  - rewrite isnan_R, nmean_R, <- (Rmean_perm _ _ Hperm). reflexivity.
Qed.

Lemma notnan_opts (l : list (option R)) : Forall (fun o => match o with Some x => NotNaN x | None => True end) l.
Proof. apply Forall_forall. intros [x|] _; auto. apply isnan_R. Qed.

Lemma selection (scores : list (list R)) (n : nat) (row col : nat) :
  (0 < n)%nat -> Forall (fun c => length c = n) scores ->
  autounfold_select scores = Ok (row, col) ->
  exists c, nth_error scores col = Some c /\
    (exists s, nth_error c row = Some s /\
      forall k x, nth_error c k = Some x -> (Rabs s <= Rabs x)%R /\ ((k < row)%nat -> (Rabs s < Rabs x)%R)) /\
    ((exists j c' m', nth_error scores j = Some c' /\ MeanBelowP90 (map Rabs c') m') ->
     exists m, MeanBelowP90 (map Rabs c) m /\
       forall j c' m', nth_error scores j = Some c' -> MeanBelowP90 (map Rabs c') m' -> (m <= m')%R).
Proof.
  intros Hn Hlen H. unfold autounfold_select in H.
  set (cols := map (map nabs) scores) in H. set (means := map masked_mean cols) in H.
  destruct (select_column means) as [c|] eqn:Ec; [|discriminate]. cbn [bind] in H.
  destruct (nth_error cols c) as [col'|] eqn:Ecol; [|discriminate].
  destruct (argmin (map skipna col')) as [[r v]|] eqn:Er; [|discriminate]. injection H as <- <-.
  unfold cols in Ecol. rewrite nth_error_map in Ecol.
  destruct (nth_error scores c) as [cc|] eqn:Ecc; [|discriminate]. injection Ecol as <-.
  exists cc. split; auto. split.
  - pose proof (argmin_spec (map skipna (map Rabs cc)) (notnan_opts _)) as K. rewrite Er in K. destruct K as (K1 & _ & K3).
    assert (Hnth : forall k, nth_error (map skipna (map Rabs cc)) k = option_map (fun x => Some (Rabs x)) (nth_error cc k)).
    { intro k. rewrite map_map, nth_error_map. destruct (nth_error cc k); auto. cbn [option_map]. unfold skipna. now rewrite isnan_R. }
    rewrite Hnth in K1. destruct (nth_error cc r) as [s|] eqn:Es; [|discriminate]. cbn in K1. injection K1 as <-.
    exists s. split; auto. intros k x Hk. specialize (K3 k (Rabs x)). rewrite Hnth, Hk in K3.
    destruct (K3 eq_refl) as [K3a K3b]. split; [now apply Le_R|]. intro Hlt. apply nlt_R, K3b, Hlt.
  - intros (j & c' & m' & Hj & Hm').
    assert (Hne : forall j c, nth_error scores j = Some c -> map Rabs c <> []).
    { intros j0 c0 H0. rewrite Forall_forall in Hlen. apply nth_error_In, Hlen in H0. destruct c0; [cbn in H0; lia|discriminate]. }
    assert (Hmn : forall j, nth_error means j = option_map (fun c => masked_mean (map Rabs c)) (nth_error scores j)).
    { intro j0. unfold means, cols. rewrite map_map, nth_error_map. reflexivity. }
    pose proof (argmin_spec means (notnan_opts _)) as K.
    unfold select_column in Ec. destruct means as [|m0 ms] eqn:Em; [discriminate|]. rewrite <- Em in *.
    destruct (argmin means) as [[jj b]|] eqn:Ea.
    + injection Ec as ->. destruct K as (K1 & _ & K3). rewrite Hmn, Ecc in K1. cbn in K1. injection K1 as K1.
      exists b. split; [apply masked_mean_R; eauto|].
      intros j2 c2 m2 Hj2 Hm2. destruct (K3 j2 m2) as [K4 _].
      { rewrite Hmn, Hj2. cbn. f_equal. apply masked_mean_complete; eauto. }
      now apply Le_R.
    + exfalso. rewrite Forall_forall in K. specialize (Hmn j). rewrite Hj in Hmn. cbn in Hmn.
      rewrite (masked_mean_complete _ m') in Hmn by eauto. apply nth_error_In, K in Hmn. discriminate.
Qed.

Lemma masked_mean_single (x : R) : masked_mean [x] = None.
Proof.
  unfold masked_mean, quantile90. rewrite filter_notnan_R. cbn [np_sort insert_by length nth_error].
  change (9 * (Z.of_nat 1 - 1))%Z with 0%Z. change (Z.to_nat (0 / 10)) with 0%nat. cbn [nth_error].
  change (0 mod 10)%Z with 0%Z. cbn [filter].
  assert (nlt x (nadd x (nmul (nsub x x) (ndiv (nofZ 0) (nofZ 10)))) = false) as ->; auto.
  apply nlt_R_false. cbn [nadd nmul nsub ndiv nofZ Num_R]. lra.
Qed.
Lemma select_single_row (scores : list (list R)) : scores <> [] -> Forall (fun c => length c = 1%nat) scores ->
  autounfold_select scores = Ok (0%nat, 0%nat).
Proof.
  intros Hne Hl. unfold autounfold_select, select_column.
  assert (Hm : map masked_mean (map (map nabs) scores) = map (fun _ => None) scores).
  { rewrite map_map. apply map_ext_in. intros c Hc. rewrite Forall_forall in Hl. apply Hl in Hc.
    destruct c as [|x [|y t]]; try discriminate. apply masked_mean_single. }
  rewrite Hm.
  assert (Ha : argmin (map (fun _ : list R => @None R) scores) = None).
  { unfold argmin. generalize 0%nat. clear. induction scores; intros; cbn; auto. }
  rewrite Ha. destruct scores as [|c t]; [congruence|]. cbn [map bind nth_error].
  inversion Hl as [|? ? Hc _]; subst. destruct c as [|x [|y t']]; try discriminate.
  cbn [map]. unfold argmin. cbn [argmin_from]. unfold skipna. rewrite isnan_R. reflexivity.
Qed.

Lemma select_constant_column : exists (scores : list (list R)) row,
  autounfold_select scores = Ok (row, 1%nat) /\ nth_error scores 0 = Some [0; 0]%R /\ nth_error scores 1 = Some [5; 7]%R.
Proof.
  exists [[0; 0]; [5; 7]]%R, 0%nat. split; [|split; reflexivity].
  unfold autounfold_select.
  assert (E : map (map nabs) [[0; 0]; [5; 7]]%R = [[0; 0]; [5; 7]]%R).
  { cbn [map nabs Num_R]. now rewrite Rabs_R0, !Rabs_right by lra. }
  rewrite E.
  assert (Hq : forall a b, (a <= b)%R -> quantile90 [a; b] = Some (a + (b - a) * (9 / 10))%R).
  { intros a b Hab. unfold quantile90. rewrite filter_notnan_R. rewrite np_sort_id.
    - reflexivity.
    - apply Ascending_NpLe; [apply notnan_R|]. repeat constructor. now apply Le_R. }
  assert (M1 : masked_mean [0; 0]%R = None).
  { unfold masked_mean. rewrite Hq by lra. cbn [filter].
    assert (nlt 0%R (0 + (0 - 0) * (9 / 10))%R = false) as -> by (apply nlt_R_false; lra). reflexivity. }
  assert (M2 : masked_mean [5; 7]%R = Some (nmean [5]%R)).
  { unfold masked_mean. rewrite Hq by lra. cbn [filter].
    assert (nlt 5%R (5 + (7 - 5) * (9 / 10))%R = true) as -> by (apply nlt_R; lra).
    assert (nlt 7%R (5 + (7 - 5) * (9 / 10))%R = false) as -> by (apply nlt_R_false; lra).
    now rewrite isnan_R. }
  cbn [map]. rewrite M1, M2. unfold select_column, argmin. cbn [argmin_from bind nth_error map]. unfold skipna.
  rewrite !isnan_R. cbn [argmin_from].
  assert (nlt 7%R 5%R = false) as -> by (apply nlt_R_false; lra). reflexivity.
Qed.

Lemma trim_manually_full (F : Type) (N : Num F) (L : OrdLaws F N) eigvalsh eigvals (values : list F) o (a b s e : Z) :
  eigvals_init eigvalsh eigvals (AArr (mkarr [length values] values)) = Ok o ->
  SliceBound (Z.of_nat (length values)) a s -> SliceBound (Z.of_nat (length values)) b e ->
  AscendingNaNLast (trim_manually (o_vals o) a b) /\
  forall k, nth_error (trim_manually (o_vals o) a b) k =
    if (Z.of_nat k <? e - s)%Z then nth_error (o_vals o) (Z.to_nat s + k) else None.
Proof.
  intros Ho Ha Hb. rewrite init_1d in Ho. injection Ho as <-. cbn [o_vals]. unfold trim_manually.
  split; [apply np_sort_spec|]. intro k. rewrite np_sort_slice, py_slice_nth, np_sort_length.
  rewrite (slice_bound_unique (Z.of_nat (length values)) a s (py_clip (Z.of_nat (length values)) a)); auto; try lia; [|apply slice_bound; lia].
  rewrite (slice_bound_unique (Z.of_nat (length values)) b e (py_clip (Z.of_nat (length values)) b)); auto; try lia. apply slice_bound; lia.
Qed.
