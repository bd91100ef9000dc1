(** Properties C74-C76: the summary table of a trim report and automatic trimming and unfolding. *)
From Coq Require Import String Ascii List ZArith Bool Arith Lia Reals Lra QArith Sorting.Sorted Sorting.Permutation.
From Verif Require Import Base S_Order S_EigVals S_Trim S_Report S_Smooth M_EigVals M_Trim M_Smooth M_Report
  P_Order P_Step P_EigVals P_Trim P_TrimStat P_TrimFull P_Smooth P_ReportStr P_Report T_Smooth.
Import ListNotations.
Local Open Scope nat_scope.
Local Notation length := List.length.

(** C15. With at least one score per smoother the selection fails in one case only: when there is no smoother to select from. *)
Theorem C15_fails : forall (scores : list (list R)) e, Forall (fun c => c <> []) scores ->
  (autounfold_select scores = Raise e <-> scores = [] /\ e = IndexError).
Proof.
  intros scores e H. destruct scores as [|c l]; [cbn; split; [now intros [= <-]|now intros [_ ->]]|].
  destruct (select_ok (c :: l) ltac:(discriminate) H) as (r & j & col & -> & _). split; [discriminate|now intros [? _]].
Qed.
Print Assumptions C15_fails.
Example C15_fails_case : autounfold_select (F := R) [] = Raise IndexError /\ exists p, autounfold_select [[2; -1]; [0; 3]]%R = Ok p.
Proof. split; [now apply C15_fails|]. destruct (select_ok [[2; -1]; [0; 3]]%R ltac:(discriminate)) as (r & c & col & E & _); [repeat constructor; discriminate|]. eauto. Qed.


(** C74. The summary table: one row per iteration numbered from 0, 3 + 4m columns with pairwise distinct labels, and under each
    label the statistic it names, for that iteration and that smoother ([rnd] is the rounding to one decimal, [store] the
    conversion to float32). *)
Theorem C74_summary_table : forall rnd store hbos (fit : list R -> result (list column)) names values (max_trim : R) max_iters its,
  (forall id l lab, hbos id l = Ok lab -> length lab = length l) ->
  (forall l cols, fit l = Ok cols -> map c_name cols = names) -> NoDup names ->
  trim_iters hbos fit values max_trim max_iters = Ok its ->
  exists f, summary rnd store names its = Ok f /\
    f_index f = seq 0 (length its) /\ length (f_cols f) = 4 * length names + 3 /\ NoDup (map fst (f_cols f)) /\
    (forall lab col, In (lab, col) (f_cols f) -> length col = length its) /\
    forall k t, nth_error its k = Some t ->
      let n := INR (length values) in
      let cell lab v := HasCell (f_cols f) lab k (store v) in
      cell "trim_percent"%string (rnd (100 - 100 * INR (length (ti_eigs t)) / n)%R) /\
      (exists a i, head_opt (ti_eigs t) = Some a /\ LeastIndex (fun x => neq x a) (ti_origs t) i /\
         cell "trim_low"%string (rnd (100 * INR i / n)%R)) /\
      (exists b i, last_opt (ti_eigs t) = Some b /\ GreatestIndex (fun x => neq x b) (ti_origs t) i /\ i < length values /\
         cell "trim_high"%string (rnd (100 * INR (length values - 1 - i) / n)%R)) /\
      forall j c, nth_error (ti_fits t) j = Some c ->
        let mean := Rmean (Gaps (c_unfolded c)) in let var := Rvar1 (Gaps (c_unfolded c)) in
        cell (c_name c ++ "--mean_spacing")%string mean /\ cell (c_name c ++ "--var_spacing")%string var /\
        cell (c_name c ++ "--msqe")%string (c_msqe c) /\ cell (c_name c ++ "--score")%string (ScoreOf (c_unfolded c)).
Proof. exact summary_table. Qed.
Print Assumptions C74_summary_table.

(** C74 fails when the same smoother is asked for twice: no table, whatever the data. *)
Theorem C74_repeated_smoother_refuted : forall (F : Type) (N : Num F) (L : OrdLaws F N) rnd store hbos
    (fit : list F -> result (list column)) names values max_trim max_iters its i j nm,
  (forall id l lab, hbos id l = Ok lab -> length lab = length l) ->
  (forall l cols, fit l = Ok cols -> map c_name cols = names) ->
  i <> j -> nth_error names i = Some nm -> nth_error names j = Some nm ->
  trim_iters hbos fit values max_trim max_iters = Ok its ->
  summary rnd store names its = Raise ValueError.
Proof. intros; eapply summary_repeated; eauto. Qed.
Print Assumptions C74_repeated_smoother_refuted.

(** Sample data over exact rationals: fits by the fixed oracles of T_Smooth, a detector that flags values of at least 50. *)
Definition rp_hbos (id : nat) (l : list Q) : result (list bool) := Ok (map (fun x => Qle_bool 50 x) l).
Definition rp_fit (polys : list Z) (ss : @smooths_arg Q) : list Q -> result (list column) := fun l =>
  fit_all ex_emd ex_nexp (fun _ s => s) (ex_poly [0; 1]%Q) ex_spline ex_exp ex_gomp (format_fixed 3) (format_fixed 2) [2#5]%Q
    l polys ss [3%Z] false false.
Definition rp_names polys ss := get_smoother_names (format_fixed 3) [2#5]%Q polys ss [3%Z] false.
Definition rp_vals : list Q := [4; 1; 90; 2]%Q.
Definition rp_id (x : Q) : Q := Qred x.
Example C74_case :
  (let! its := trim_iters rp_hbos (rp_fit [3%Z] (SList [1#2]%Q)) rp_vals (1#2)%Q 3 in
   summary rp_id rp_id (rp_names [3%Z] (SList [1#2]%Q)) its) =
  Ok (mkframe [0; 1]
    [("trim_percent", [0; 25]); ("trim_low", [0; 0]); ("trim_high", [0; 25]);
     ("poly_3--mean_spacing", [89 # 3; 3 # 2]); ("poly_3--var_spacing", [7141 # 3; 1 # 2]);
     ("poly_3--msqe", [7397 # 4; 1 # 3]); ("poly_3--score", [3576220 # 429; 571 # 572]);
     ("cubic-spline_0.500--mean_spacing", [89 # 6; 3 # 4]); ("cubic-spline_0.500--var_spacing", [7141 # 12; 1 # 8]);
     ("cubic-spline_0.500--msqe", [6733 # 16; 3 # 4]); ("cubic-spline_0.500--score", [1193551 # 572; -787 # 1144])]%string%Q) /\
  (let! its := trim_iters rp_hbos (rp_fit [3%Z; 3%Z] (SList [])) rp_vals (1#2)%Q 3 in
   summary rp_id rp_id (rp_names [3%Z; 3%Z] (SList [])) its) = Raise ValueError.
Proof. split; vm_compute; reflexivity. Qed.

Section C75.
Variable len_pow : nat -> R -> R.
Variable emd : list R -> result (list (list R)).
Variable nexp : R -> R.
Variable polyfit : list R -> list R -> Z -> result (list R).
Variable uspline : list R -> list R -> Z -> R -> result (R -> R).
Variable fit_exp : list R -> list R -> R * R -> result (R * R).
Variable fit_gompertz : list R -> list R -> R * R * R -> result (R * R * R).
Variable fmt3 fmt2 : R -> string.
Variable defaults : list R.
Variable rnd store : R -> R.
Variable hbos : nat -> list R -> result (list bool).
Hypothesis hbos_len : forall id l lab, hbos id l = Ok lab -> length lab = length l.
Notation fits polys ss degs gomp det := (fun l =>
  fit_all emd nexp len_pow polyfit uspline fit_exp fit_gompertz fmt3 fmt2 defaults l polys ss degs gomp det).
Notation names := (get_smoother_names fmt3 defaults).
Notation auto polys ss degs gomp det :=
  (trim_unfold_auto rnd store hbos (fits polys ss degs gomp det) (names polys ss degs gomp)).

(** C75. Whatever the oracles answer, an automatic trim-and-unfold that returns hands back a contiguous run of the sorted
    input, at least the fraction [1 - max_trim] of it, together with the sorted values of one of the fits made on exactly
    that run: as many as there are eigenvalues. *)
Theorem C75_auto_provenance : forall polys ss degs gomp det values (max_trim : R) max_iters u,
  (0 <= max_trim)%R -> auto polys ss degs gomp det values max_trim max_iters = Ok u ->
  exists s cols c, Permutation values s /\ Ascending s /\ Contiguous s (u_originals u) /\ u_originals u <> [] /\
    (INR (length values - length (u_originals u)) <= max_trim * INR (length values))%R /\
    fits polys ss degs gomp det (u_originals u) = Ok cols /\ In c cols /\ u_values u = c_unfolded c /\
    length (u_values u) = length (u_originals u) /\ Ascending (u_values u) /\ u_smoother u = CNone.
Proof. intros; eapply auto_provenance; eauto. Qed.

(** C75. With a list of smoothing factors, distinct smoother names and at least one smoother it always returns once the trim
    iterations exist; the smoother has the least below-percentile average score (when one is defined) and the row is the
    first with the least absolute score in that smoother's column. *)
Theorem C75_auto_selects : forall polys l degs gomp det values (max_trim : R) max_iters its,
  (forall x, Decimals 3 (fmt3 x)) -> NoDup (names polys (SList l) degs gomp) -> names polys (SList l) degs gomp <> [] ->
  trim_iters hbos (fits polys (SList l) degs gomp det) values max_trim max_iters = Ok its ->
  let scores j := map (fun t => store (ScoreOf (nth j (map c_unfolded (ti_fits t)) []))) its in
  let m := length (names polys (SList l) degs gomp) in
  exists row col t c, nth_error its row = Some t /\ nth_error (ti_fits t) col = Some c /\
    auto polys (SList l) degs gomp det values max_trim max_iters = Ok (mkunf (ti_eigs t) (c_unfolded c) CNone) /\
    (exists s, nth_error (scores col) row = Some s /\
       forall k x, nth_error (scores col) k = Some x -> (Rabs s <= Rabs x)%R /\ (k < row -> (Rabs s < Rabs x)%R)) /\
    ((exists j a, j < m /\ MeanBelowP90 (map Rabs (scores j)) a) ->
     exists a, MeanBelowP90 (map Rabs (scores col)) a /\
       forall j a', j < m -> MeanBelowP90 (map Rabs (scores j)) a' -> (a <= a')%R).
Proof.
  intros polys l degs gomp det values max_trim max_iters its Hf Hd Hne H scores m.
  eapply (auto_selects rnd store hbos _ (smooth_tail (SList l))); eauto.
  - apply smooth_tail_good.
  - now apply names_form.
  - intros l' cols E. eapply C34_columns_line_up. exact E.
Qed.

(** C75 is false for the documented [spline_smooths="heuristic"]: with splines only, the lookup of the selected unfolding always
    fails, because the table names them with three decimals and the fits with two. *)
Theorem C75_auto_heuristic_refuted : forall degs det values (max_trim : R) max_iters its,
  (forall s, In s defaults -> Decimals 3 (fmt3 s) /\ Decimals 2 (fmt2 s)) -> (forall x, Decimals 3 (fmt3 x)) ->
  NoDup (names [] SHeuristic degs false) -> NoDup (get_smoother_names fmt2 defaults [] SHeuristic degs false) ->
  defaults <> [] -> degs <> [] ->
  trim_iters hbos (fits [] SHeuristic degs false det) values max_trim max_iters = Ok its ->
  auto [] SHeuristic degs false det values max_trim max_iters = Raise KeyError.
Proof.
  intros degs det values max_trim max_iters its Hf Hf3 Hd Hd2 Hdef Hdeg H.
  eapply (auto_keyerror rnd store hbos _ (smooth_tail SHeuristic)); eauto.
  - apply smooth_tail_good.
  - now apply names_form.
  - unfold get_smoother_names. destruct defaults; [congruence|]. destruct degs; [congruence|discriminate].
  - intros l cols E. apply fit_all_names_heuristic in E. rewrite <- (map_length c_name), E. split; [apply heuristic_names_length|].
    split; [assumption|]. intros n. now apply heuristic_names_disjoint.
Qed.
End C75.
Print Assumptions C75_auto_provenance.
Print Assumptions C75_auto_selects.
Print Assumptions C75_auto_heuristic_refuted.
Example C75_case :
  (let! u := trim_unfold_auto rp_id rp_id rp_hbos (rp_fit [3%Z] (SList [1#2]%Q)) (rp_names [3%Z] (SList [1#2]%Q)) rp_vals (1#2)%Q 3 in
   Ok (u_originals u, u_values u)) = Ok ([1; 2; 4]%Q, [1#2; 1; 2]%Q) /\
  (let! u := trim_unfold_auto rp_id rp_id rp_hbos (rp_fit [] SHeuristic) (rp_names [] SHeuristic) rp_vals (1#2)%Q 3 in
   Ok (u_originals u, u_values u)) = Raise KeyError /\
  (forall q, Decimals 3 (format_fixed 3 q) /\ Decimals 2 (format_fixed 2 q)).
Proof. split; [vm_compute; reflexivity|]. split; [vm_compute; reflexivity|]. split; apply format_fixed_decimals. Qed.

(** C76. The regular expressions used to find columns of the table (in which the full stop of a name matches any character)
    find what is meant: "score" exactly the score columns, and a score column's label exactly that column; and removing
    "--score" from it gives back the smoother's name. *)
Theorem C76_regex_columns : forall (F : Type) (fmt3 : F -> string) defaults polys ss degs gomp,
  (forall x, Decimals 3 (fmt3 x)) ->
  let names := get_smoother_names fmt3 defaults polys ss degs gomp in
  (forall lab, In lab (summary_columns names) ->
     (re_search "score"%string lab = true <-> exists n, In n names /\ lab = (n ++ "--score")%string)) /\
  (forall n lab, In n names -> In lab (summary_columns names) ->
     (re_search (n ++ "--score")%string lab = true <-> lab = (n ++ "--score")%string)) /\
  (forall n, In n names -> str_remove "--score"%string (n ++ "--score")%string = n).
Proof. exact regex_columns. Qed.
Print Assumptions C76_regex_columns.
Example C76_case :
  let names := get_smoother_names (format_fixed 3) [] [3; 13]%Z (SList [7#5; 114#10]%Q) [3; 4]%Z true in
  filter (re_search "score"%string) (summary_columns names) =
    ["poly_3--score"; "poly_13--score"; "cubic-spline_1.400--score"; "quartic-spline_1.400--score"; "cubic-spline_11.400--score";
     "quartic-spline_11.400--score"; "gompertz--score"]%string /\
  filter (re_search "cubic-spline_1.400--score"%string) (summary_columns names) = ["cubic-spline_1.400--score"]%string /\
  re_search "a.c"%string "xabcx"%string = true /\ str_remove "--score"%string "poly_3--score"%string = "poly_3"%string.
Proof. repeat split; vm_compute; reflexivity. Qed.
