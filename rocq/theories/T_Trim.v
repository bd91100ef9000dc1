(** Properties C09-C17 and C64: trimming. *)
From Coq Require Import List ZArith Bool Arith Lia Reals Lra Sorting.Sorted Sorting.Permutation.
From Coq Require Import Floats.SpecFloat.
From Verif Require Import Base S_Order S_EigVals S_Trim M_EigVals M_Trim P_Order P_Step P_EigVals P_Trim P_TrimStat P_TrimFull.
Import ListNotations.

(** Sample data for the examples: a detector that flags by value. *)
Definition flz (z : Z) : b64 := b64_ofZ z.
Definition exv : list b64 := map flz [5; 1; 90; 3; -80; 4; 2]%Z.
Definition ex_hbos (id : nat) (l : list b64) : result (list bool) :=
  Ok (map (fun x => nlt (flz 10) x || nlt x (flz (-10))) l).
Definition ex_fit (l : list b64) : result unit := Ok tt.
Definition ex_half : b64 := ndiv (flz 1) (flz 2).
Definition row_of (t : trimiter b64 unit) := (ti_id t, ti_eigs t, ti_clusters t).
Lemma ex_hbos_len id l lab : ex_hbos id l = Ok lab -> length lab = length l.
Proof. unfold ex_hbos. intro H. injection H as <-. apply map_length. Qed.

(** C64. Index searches. *)
Theorem C64_find_first_last : forall (A : Type) (eqb : A -> A -> bool) (l : list A) (v : A),
  ((exists i, LeastIndex (fun x => eqb x v) l i /\ find_first eqb l v = Z.of_nat i) \/
   (Absent (fun x => eqb x v) l /\ find_first eqb l v = (-1)%Z)) /\
  ((exists i, GreatestIndex (fun x => eqb x v) l i /\ find_last eqb l v = Z.of_nat i) \/
   (Absent (fun x => eqb x v) l /\ find_last eqb l v = (-1)%Z)).
Proof.
  intros A eqb l v. split.
  - destruct (find_first_spec eqb l v); auto.
  - destruct (find_last_spec eqb l v); auto.
Qed.
Print Assumptions C64_find_first_last.
Example C64_case : find_first Z.eqb [4; 7; 4; 9; 7]%Z 7%Z = 1%Z /\ find_last Z.eqb [4; 7; 4; 9; 7]%Z 7%Z = 4%Z /\
  find_first Z.eqb [4; 7]%Z 5%Z = (-1)%Z.
Proof. repeat split. Qed.

(** C09. Whatever the detector flags, the labels used for trimming mark one end only, always leave a value,
    never mark a value that was not flagged, and mark the whole flagged run at the chosen end. *)
Theorem C09_labels_one_end : forall (lab : list bool), lab <> [] ->
  exists r, outlier_labels lab = Ok r /\ length r = length lab /\ OneEnd r /\
    (forall i, nth_error r i = Some true -> nth_error lab i = Some true) /\
    (head_opt lab = Some false -> last_opt lab = Some false -> r = repeat false (length lab)) /\
    (forall p rest, (0 < p)%nat -> lab = repeat true p ++ false :: rest ->
       r = repeat true p ++ repeat false (S (length rest))) /\
    (forall p rest, (0 < p)%nat -> head_opt lab = Some false -> lab = rest ++ false :: repeat true p ->
       r = repeat false (S (length rest)) ++ repeat true p) /\
    (lab = repeat true (length lab) -> r = repeat false (length lab)).
Proof. exact labels_full. Qed.
Print Assumptions C09_labels_one_end.
Example C09_case :
  outlier_labels [true; true; false; true; false; true] = Ok [true; true; false; false; false; false] /\
  outlier_labels [false; true; false; true; true] = Ok [false; false; false; true; true] /\
  outlier_labels [false; true; true; false] = Ok [false; false; false; false] /\
  outlier_labels [true; true; true] = Ok [false; false; false].
Proof. repeat split. Qed.
(** C09. The clean-up of the labels fails for one input only: no labels at all, where it raises IndexError. *)
Theorem C09_fails_only_empty : forall lab e, outlier_labels lab = Raise e <-> lab = [] /\ e = IndexError.
Proof.
  intros lab e. destruct lab as [|b lab]; [cbn; split; [now intros [= <-]|now intros [_ ->]]|].
  destruct (C09_labels_one_end (b :: lab) ltac:(discriminate)) as (r & -> & _). split; [discriminate|now intros [H _]].
Qed.
Print Assumptions C09_fails_only_empty.
Example C09_empty_case : outlier_labels [] = Raise IndexError /\ exists r, outlier_labels [true] = Ok r.
Proof. split; [now apply C09_fails_only_empty|eexists; reflexivity]. Qed.

(** C10. Trim iterations: how many, their ids, nesting, and the fraction removed. *)
Theorem C10_trim_iterations :
  forall (F U : Type) (N : Num F) (L : OrdLaws F N) hbos (fit_all : list F -> result U) values max_trim max_iters its,
  (forall id l lab, hbos id l = Ok lab -> length lab = length l) ->
  trim_iters hbos fit_all values max_trim max_iters = Ok its ->
  (1 <= Z.of_nat (length its) <= Z.max 0 max_iters + 1)%Z /\
  (exists t0, nth_error its 0 = Some t0 /\ Permutation values (ti_eigs t0) /\ AscendingNaNLast (ti_eigs t0) /\
     forall k t, nth_error its k = Some t ->
       ti_id t = k /\ ti_eigs t <> [] /\ Contiguous (ti_eigs t0) (ti_eigs t) /\ ti_origs t = ti_eigs t0) /\
  (forall k a b, nth_error its k = Some a -> nth_error its (S k) = Some b -> EndTrim (ti_eigs a) (ti_eigs b)) /\
  (forall k t, nth_error its (S k) = Some t -> ngt (proportion_removed t) max_trim = false) /\
  ((Z.of_nat (length its) < Z.max 0 max_iters + 1)%Z -> forall l, last_opt its = Some l ->
     ((1 < length its)%nat /\ is_all_inliers l = true) \/
     exists nx, next_iter hbos fit_all l = Ok nx /\ ngt (proportion_removed nx) max_trim = true).
Proof. intros; eapply trim_iterations_full; eauto. Qed.
Print Assumptions C10_trim_iterations.

(** C10 in exact arithmetic: every recorded trim removes at most the fraction [max_trim]. *)
Theorem C10_max_trim_respected :
  forall (U : Type) hbos (fit_all : list R -> result U) values (max_trim : R) max_iters its,
  (forall id l lab, hbos id l = Ok lab -> length lab = length l) -> (0 <= max_trim)%R ->
  trim_iters hbos fit_all values max_trim max_iters = Ok its ->
  forall k t, nth_error its k = Some t ->
    (INR (length values - length (ti_eigs t)) <= max_trim * INR (length values))%R.
Proof. exact max_trim_respected. Qed.
Print Assumptions C10_max_trim_respected.
Example C10_case :
  exists its, trim_iters ex_hbos ex_fit exv ex_half 7 = Ok its /\
    map row_of its =
      [(0%nat, map flz [-80; 1; 2; 3; 4; 5; 90]%Z, [true; false; false; false; false; false; false]);
       (1%nat, map flz [1; 2; 3; 4; 5; 90]%Z, [false; false; false; false; false; true]);
       (2%nat, map flz [1; 2; 3; 4; 5]%Z, [false; false; false; false; false])].
Proof. eexists. split; vm_compute; reflexivity. Qed.

(** C11. Rows get strictly smaller, except that row 1 repeats row 0 exactly when row 0 has no outlier. *)
Theorem C11_rows_shrink_partial :
  forall (F U : Type) (N : Num F) hbos (fit_all : list F -> result U) values max_trim max_iters its,
  (forall id l lab, hbos id l = Ok lab -> length lab = length l) ->
  trim_iters hbos fit_all values max_trim max_iters = Ok its ->
  forall k a b, nth_error its k = Some a -> nth_error its (S k) = Some b ->
    ((0 < k)%nat \/ In true (ti_clusters a)) -> (length (ti_eigs b) < length (ti_eigs a))%nat.
Proof. exact @rows_shrink. Qed.
Print Assumptions C11_rows_shrink_partial.

(** C11 as documented is false: whenever no outlier is found in the full spectrum and one iteration is allowed, the report has
    a second row equal to the first. *)
Theorem C11_rows_shrink_refuted :
  (forall (U : Type) hbos (fit_all : list R -> result U) values (max_trim : R) max_iters its t0,
    (forall id l lab, hbos id l = Ok lab -> length lab = length l) ->
    (0 <= max_trim)%R -> (0 < max_iters)%Z ->
    trim_iters hbos fit_all values max_trim max_iters = Ok its ->
    nth_error its 0 = Some t0 -> ~ In true (ti_clusters t0) ->
    exists t1, nth_error its 1 = Some t1 /\ ti_eigs t1 = ti_eigs t0) /\
  exists its a b, trim_iters ex_hbos ex_fit (map flz [1; 2; 3]%Z) ex_half 7 = Ok its /\
    nth_error its 0 = Some a /\ nth_error its 1 = Some b /\ ti_eigs b = ti_eigs a.
Proof.
  split; [exact rows_repeat|]. do 3 eexists. split; [vm_compute; reflexivity|].
  split; [reflexivity|]. split; reflexivity.
Qed.
Print Assumptions C11_rows_shrink_refuted.
Example C11_case : exists its a b, trim_iters ex_hbos ex_fit exv ex_half 7 = Ok its /\
  nth_error its 1 = Some a /\ nth_error its 2 = Some b /\ length (ti_eigs a) = 6%nat /\ length (ti_eigs b) = 5%nat.
Proof. do 3 eexists. split; [vm_compute; reflexivity|]. repeat split. Qed.

(** C12. With distinct values, [trim_indices = (s, e)] means positions s..e INCLUSIVE of the sorted spectrum. *)
Theorem C12_trim_indices_inclusive :
  forall (F U : Type) (N : Num F) (L : OrdLaws F N) hbos (fit_all : list F -> result U) values max_trim max_iters its k t,
  (forall id l lab, hbos id l = Ok lab -> length lab = length l) ->
  Forall NotNaN values -> Distinct values ->
  trim_iters hbos fit_all values max_trim max_iters = Ok its -> nth_error its k = Some t ->
  exists s e, trim_indices t = Ok (s, e) /\ (0 <= s <= e)%Z /\ (e < Z.of_nat (length values))%Z /\
    ti_eigs t = py_slice (ti_origs t) s (e + 1) /\
    (forall j, nth_error (ti_eigs t) j = if (Z.of_nat j <=? e - s)%Z then nth_error (ti_origs t) (Z.to_nat s + j) else None).
Proof. intros; eapply indices_inclusive; eauto. Qed.
Print Assumptions C12_trim_indices_inclusive.

(** C12: the documented reading [eigs[s:e]] always drops the last kept value, and with repeated values the located range can
    be strictly larger than the kept one. *)
Theorem C12_documented_slice_refuted :
  (forall (F U : Type) (N : Num F) (L : OrdLaws F N) hbos (fit_all : list F -> result U) values max_trim max_iters its k t,
    (forall id l lab, hbos id l = Ok lab -> length lab = length l) ->
    Forall NotNaN values -> Distinct values ->
    trim_iters hbos fit_all values max_trim max_iters = Ok its -> nth_error its k = Some t ->
    exists s e v, trim_indices t = Ok (s, e) /\ ti_eigs t = py_slice (ti_origs t) s e ++ [v]) /\
  (exists its t s e, trim_iters (fun _ l => Ok (true :: repeat false (length l - 1))) ex_fit (map flz [1; 1; 1; 2]%Z) ex_half 1 = Ok its /\
    nth_error its 1 = Some t /\ trim_indices t = Ok (s, e) /\
    Z.of_nat (length (ti_eigs t)) = 3%Z /\ (e - s + 1 = 4)%Z).
Proof.
  split.
  - intros; eapply documented_slice; eauto.
  - do 4 eexists. split; [vm_compute; reflexivity|]. split; [reflexivity|].
    split; [vm_compute; reflexivity|]. split; reflexivity.
Qed.
Print Assumptions C12_documented_slice_refuted.
Lemma exv_distinct : Forall NotNaN exv /\ Distinct exv.
Proof.
  split; [repeat (constructor; [vm_compute; reflexivity|]); constructor|].
  unfold Distinct. cbv [exv map].
  repeat (constructor; [repeat (constructor; [split; vm_compute; reflexivity|]); constructor|]). constructor.
Qed.
Example C12_case : Forall NotNaN exv /\ Distinct exv /\ exists its, trim_iters ex_hbos ex_fit exv ex_half 7 = Ok its /\
  map trim_indices its = [Ok (0, 6); Ok (1, 6); Ok (1, 5)]%Z.
Proof. destruct exv_distinct. do 2 (split; [assumption|]). eexists. split; vm_compute; reflexivity. Qed.

(** C13. Low + kept + high = all, so the unrounded percentages add up; the first trim cuts exactly one end. *)
Theorem C13_percentages_add_up :
  forall (U : Type) hbos (fit_all : list R -> result U) values (max_trim : R) max_iters its k t,
  (forall id l lab, hbos id l = Ok lab -> length lab = length l) -> Distinct values ->
  trim_iters hbos fit_all values max_trim max_iters = Ok its -> nth_error its k = Some t ->
  exists lo hi,
    lower_percent_removed (fun x => x) t = Ok lo /\ upper_percent_removed (fun x => x) t = Ok hi /\
    (lo + hi = percent_removed (fun x => x) t)%R /\ (0 <= lo)%R /\ (0 <= hi)%R /\
    (k = 0%nat -> lo = 0%R /\ hi = 0%R) /\
    (k = 1%nat -> (length (ti_eigs t) < length values)%nat -> (lo = 0 /\ 0 < hi)%R \/ (0 < lo /\ hi = 0)%R).
Proof. exact percentages. Qed.
Print Assumptions C13_percentages_add_up.

(** C13 fails with repeated values: a quarter removed, reported as 0 below and 0 above. *)
Theorem C13_percentages_ties_refuted :
  exists its t, trim_iters (fun _ l => Ok (true :: repeat false (length l - 1))) ex_fit (map flz [1; 1; 1; 2]%Z) ex_half 1 = Ok its /\
    nth_error its 1 = Some t /\ percent_removed (fun x => x) t = flz 25 /\
    lower_percent_removed (fun x => x) t = Ok (flz 0) /\ upper_percent_removed (fun x => x) t = Ok (flz 0).
Proof. do 2 eexists. split; [vm_compute; reflexivity|]. split; [reflexivity|]. repeat split; vm_compute; reflexivity. Qed.
Print Assumptions C13_percentages_ties_refuted.
Example C13_case : exists its t, trim_iters ex_hbos ex_fit (exv ++ [flz 0]) ex_half 7 = Ok its /\ nth_error its 2 = Some t /\
  lower_percent_removed (fun x => x) t = Ok (ndiv (flz 25) (flz 2)) /\
  upper_percent_removed (fun x => x) t = Ok (ndiv (flz 25) (flz 2)) /\ percent_removed (fun x => x) t = flz 25.
Proof. do 2 eexists. split; [vm_compute; reflexivity|]. split; [reflexivity|]. repeat split; vm_compute; reflexivity. Qed.

(** C14. The score. *)
Theorem C14_score : forall (u : list R) (a b : R), (3 <= length u)%nat ->
  head_opt u = Some a -> last_opt u = Some b ->
  exists mean var score, evaluate_unfolding u = (mean, var, score) /\
    mean = ((b - a) / (INR (length u) - 1))%R /\ var = Rvar1 (Gaps u) /\ (0 <= var)%R /\
    score = ((var - 0.286) / 0.286 + (mean - 1) / 2)%R /\
    (forall d, evaluate_unfolding (map (fun x => x + d)%R u) = evaluate_unfolding u) /\
    (mean = 1%R -> var = 0.286%R -> score = 0%R) /\
    (-1 + (mean - 1) / 2 <= score)%R.
Proof. exact score_full. Qed.
Print Assumptions C14_score.
Example C14_case : evaluate_unfolding (map flz [0; 1; 3; 3]%Z) =
  (flz 1, flz 1, nadd (ndiv (nsub (flz 1) goe_variance) goe_variance) (flz 0)).
Proof. vm_compute. reflexivity. Qed.

(** C15. For reports with a defined below-percentile average, the chosen smoother has the least one and the chosen row is the
    first with the least absolute score in that column. *)
Theorem C15_selection_partial : forall (scores : list (list R)) (n : nat) (row col : nat),
  (0 < n)%nat -> Forall (fun c => length c = n) scores ->
  autounfold_select scores = Ok (row, col) ->
  exists c, nth_error scores col = Some c /\
    (exists s, nth_error c row = Some s /\
      forall k x, nth_error c k = Some x -> (Rabs s <= Rabs x)%R /\ ((k < row)%nat -> (Rabs s < Rabs x)%R)) /\
    ((exists j c' m', nth_error scores j = Some c' /\ MeanBelowP90 (map Rabs c') m') ->
     exists m, MeanBelowP90 (map Rabs c) m /\
       forall j c' m', nth_error scores j = Some c' -> MeanBelowP90 (map Rabs c') m' -> (m <= m')%R).
Proof. exact selection. Qed.
Print Assumptions C15_selection_partial.

(** C15 is false for single-row reports (every [Trimmed.unfold_auto] call): the first listed smoother is returned whatever
    the scores; and a column with the same score in every row is passed over even when that score is perfect. *)
Theorem C15_selection_refuted :
  (forall (scores : list (list R)), scores <> [] -> Forall (fun c => length c = 1%nat) scores ->
     autounfold_select scores = Ok (0%nat, 0%nat)) /\
  (exists (scores : list (list R)) row,
     autounfold_select scores = Ok (row, 1%nat) /\ nth_error scores 0 = Some [0; 0]%R /\ nth_error scores 1 = Some [5; 7]%R).
Proof. split; [exact select_single_row|exact select_constant_column]. Qed.
Print Assumptions C15_selection_refuted.
Example C15_case :
  autounfold_select [map flz [5; -4; 6]; map flz [2; -1; 9]; map flz [0; 0; 0]]%Z = Ok (1%nat, 1%nat) /\
  autounfold_select [map flz [50]; map flz [0]]%Z = Ok (0%nat, 0%nat).
Proof. split; vm_compute; reflexivity. Qed.

(** C17. Manual trimming follows Python slice semantics on the stored (sorted) values... *)
Theorem C17_trim_manually :
  forall (F : Type) (N : Num F) (L : OrdLaws F N) eigvalsh eigvals (values : list F) o (a b s e : Z),
  eigvals_init eigvalsh eigvals (AArr (mkarr [length values] values)) = Ok o ->
  SliceBound (Z.of_nat (length values)) a s -> SliceBound (Z.of_nat (length values)) b e ->
  AscendingNaNLast (trim_manually (o_vals o) a b) /\
  forall k, nth_error (trim_manually (o_vals o) a b) k =
    if (Z.of_nat k <? e - s)%Z then nth_error (o_vals o) (Z.to_nat s + k) else None.
Proof. exact trim_manually_full. Qed.
Print Assumptions C17_trim_manually.

(** ... and iteration selection Python list-index semantics, with a ValueError above the range. *)
Theorem C17_use_trim_iteration :
  forall (F U : Type) (N : Num F) (L : OrdLaws F N) hbos (fit_all : list F -> result U) values max_trim max_iters its (i : Z),
  (forall id l lab, hbos id l = Ok lab -> length lab = length l) ->
  trim_iters hbos fit_all values max_trim max_iters = Ok its ->
  let n := Z.of_nat (length its) in
  ((0 <= i < n)%Z -> exists t, nth_error its (Z.to_nat i) = Some t /\ use_trim_iteration its i = Ok (ti_eigs t)) /\
  ((- n <= i < 0)%Z -> exists t, nth_error its (Z.to_nat (n + i)) = Some t /\ use_trim_iteration its i = Ok (ti_eigs t)) /\
  ((n <= i)%Z -> use_trim_iteration its i = Raise ValueError) /\
  ((i < - n)%Z -> use_trim_iteration its i = Raise IndexError).
Proof. intros; eapply use_iteration; eauto. Qed.
Print Assumptions C17_use_trim_iteration.
Example C17_case :
  trim_manually (map flz [1; 2; 3; 4; 5]%Z) 1 3 = map flz [2; 3]%Z /\
  trim_manually (map flz [1; 2; 3; 4; 5]%Z) (-3) (-1) = map flz [3; 4]%Z /\
  trim_manually (map flz [1; 2; 3; 4; 5]%Z) 3 99 = map flz [4; 5]%Z /\
  trim_manually (map flz [1; 2; 3; 4; 5]%Z) 4 2 = [] /\
  SliceBound 5 (-3) 2 /\ SliceBound 5 99 5.
Proof.
  do 4 (split; [vm_compute; reflexivity|]). split; [apply (SBFromEnd 5 (-3)); lia|apply (SBAbove 5 99); lia].
Qed.
Example C17_iteration_case : exists its, trim_iters ex_hbos ex_fit exv ex_half 7 = Ok its /\ length its = 3%nat /\
  use_trim_iteration its 1 = Ok (map flz [1; 2; 3; 4; 5; 90]%Z) /\ use_trim_iteration its (-1) = Ok (map flz [1; 2; 3; 4; 5]%Z) /\
  use_trim_iteration its 3 = Raise ValueError /\ use_trim_iteration its (-4) = Raise IndexError.
Proof. eexists. split; [vm_compute; reflexivity|]. vm_compute. auto. Qed.
