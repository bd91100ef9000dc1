(** Property C16: [best_overall] and [get_best_trimmed] never return. *)
From Coq Require Import String Ascii List ZArith Bool Arith Lia Reals Lra QArith Sorting.Sorted Sorting.Permutation.
From Verif Require Import Base S_Order S_EigVals S_Trim S_Report S_Smooth M_EigVals M_Trim M_Smooth M_Report M_Best
  P_Order P_Step P_EigVals P_Trim P_TrimStat P_TrimFull P_Smooth P_ReportStr P_Report T_Smooth T_Report.
Import ListNotations.
Local Open Scope nat_scope.
Local Notation length := List.length.

Lemma frame_cols_len {F} labels (cols : list (string * list F)) : forall r, frame_cols labels cols = Ok r -> length labels <= length r.
Proof.
  induction labels as [|l labels IH]; intros r H; cbn [frame_cols] in H; [cbn; lia|]. destruct (filter _ cols) as [|c cs]; [discriminate|].
  destruct (frame_cols labels cols) as [r'|]; [|discriminate]. cbn [bind] in H. injection H as <-. specialize (IH r' eq_refl). cbn. rewrite app_length. lia.
Qed.
Lemma frame_cols_total {F} labels (cols : list (string * list F)) : incl labels (map fst cols) ->
  exists r, frame_cols labels cols = Ok r /\ incl r cols /\ length labels <= length r.
Proof.
  induction labels as [|l labels IH]; intro H; cbn [frame_cols]; [exists []; repeat split; [intros x []|cbn; lia]|].
  destruct IH as (r & -> & Hr & Hl); [intros x Hx; apply H; now right|].
  assert (In l (map fst cols)) as Hi by (apply H; now left). apply in_map_iff in Hi. destruct Hi as ([l' v] & E & Hi). cbn in E. subst l'.
  assert (In (l, v) (filter (fun c => String.eqb (fst c) l) cols)) as Hf by (apply filter_In; split; [exact Hi|apply String.eqb_refl]).
  destruct (filter _ cols) as [|c cs] eqn:E; [contradiction|]. cbn [bind]. eexists. split; [reflexivity|]. split.
  - intros x Hx. cbn in Hx. apply (in_app_or (c :: cs) r) in Hx. destruct Hx as [Hx|Hx]; [|now apply Hr]. rewrite <- E in Hx. now apply filter_In in Hx.
  - cbn. rewrite app_length. lia.
Qed.
Lemma insert_value_perm {F} {N : Num F} {A} (a : A * option F) l : Permutation (a :: l) (insert_value a l).
Proof.
  induction l as [|b l IH]; [reflexivity|]. cbn [insert_value]. destruct (sorts_before _ _); [|reflexivity].
  etransitivity; [apply perm_swap|]. now constructor.
Qed.
Lemma sort_values_perm {F} {N : Num F} {A} (l : list (A * option F)) : Permutation l (sort_values l).
Proof. induction l as [|a l IH]; [reflexivity|]. unfold sort_values in *. cbn [fold_right]. rewrite <- insert_value_perm. now constructor. Qed.
Lemma for_each_head {A B} (f : A -> result B) a l e : f a = Raise e -> for_each f (a :: l) = Raise e.
Proof. intro H. cbn [for_each]. now rewrite H. Qed.
Lemma for_each_exn {A B} (f : A -> result B) l : (exists a, In a l /\ exists e, f a = Raise e) -> exists e, for_each f l = Raise e.
Proof.
  induction l as [|b l IH]; intros (a & Ha & e & He); [contradiction|]. cbn [for_each]. destruct (f b) as [y|e'] eqn:Eb; [|now exists e'].
  cbn [bind]. destruct Ha as [->|Ha]; [congruence|]. destruct IH as [e' ->]; [now exists a; split; [|exists e]|]. now exists e'.
Qed.
Lemma series_item_many {F} (l : list F) : 2 <= length l -> series_item l = Raise ValueError.
Proof. destruct l as [|a [|b l]]; cbn; intro; try lia. reflexivity. Qed.
Lemma firstn_incl {A} k (l : list A) : incl (firstn k l) l.
Proof. intros x Hx. rewrite <- (firstn_skipn k l). apply in_app_iff. now left. Qed.
Lemma best_cols_in {F} {N : Num F} {B} (g : B -> option F) (l : list (string * B)) :
  incl (firstn 3 (map fst (sort_values (map (fun c => (fst c, g (snd c))) l)))) (map fst l) /\
  (l <> [] -> firstn 3 (map fst (sort_values (map (fun c => (fst c, g (snd c))) l))) <> []).
Proof.
  set (m := map (fun c => (fst c, g (snd c))) l). assert (Permutation (map fst m) (map fst (sort_values m))) as P by (apply Permutation_map, sort_values_perm).
  assert (map fst m = map fst l) as E by (unfold m; rewrite map_map; reflexivity). rewrite E in P. split.
  - intros x Hx. apply firstn_incl in Hx. eapply Permutation_in; [symmetry; exact P|exact Hx].
  - intros Hne E0. destruct (map fst (sort_values m)) as [|x y] eqn:E1; [|discriminate]. apply Permutation_sym, Permutation_nil in P. destruct l; [congruence|discriminate].
Qed.

(** Whatever the table and the iterations are, once there is a column of scores. *)
Lemma best_raises {F} {N : Num F} (f : @frame F) its untrimmed : df_filter "score" (f_cols f) <> [] ->
  exists e, best_overall f its untrimmed = Raise e.
Proof.
  intro Hne. unfold best_overall. cbv zeta.
  set (scores := map (fun c => (fst c, map nabs (snd c))) (df_filter "score" (f_cols f))).
  set (bc := firstn 3 _). assert (bc <> []) as Hbc by (unfold bc; apply best_cols_in; unfold scores; destruct (df_filter _ _); [congruence|discriminate]).
  destruct (frame_cols bc (f_cols f)) as [sel|e] eqn:Es; [|now exists e]. cbn [bind]. apply frame_cols_len in Es.
  destruct (for_each _ its) as [u|e]; [|now exists e]. cbn [bind]. destruct (for_each _ (firstn 3 _)) as [idx|e]; [|now exists e]. cbn [bind].
  set (br := map _ sel). assert (exists p, In p (combine bc br)) as [p Hp].
  { destruct bc as [|x bc]; [congruence|]. destruct sel as [|y sel]; [cbn in Es; lia|]. eexists. left. reflexivity. }
  match goal with |- context [for_each ?g (combine bc br)] => set (h := g) end.
  destruct (for_each_exn h (combine bc br)) as [e ->]; [|now exists e]. exists p. split; [exact Hp|]. unfold h.
  destruct (frame_cols _ (f_cols f)) as [cs|e] eqn:Ec; [|now exists e]. cbn [bind]. apply frame_cols_len in Ec. cbn [List.length] in Ec.
  destruct (snd p) as [r|]; [|now exists ValueError]. destruct (iloc_row cs r) as [row|e] eqn:Er; [|now exists e]. cbn [bind].
  exists ValueError. apply series_item_many. unfold iloc_row in Er. apply for_each_Forall2, Forall2_len in Er. lia.
Qed.

Lemma starts_score_app n : nosc (chars n) -> n <> ""%string -> starts_with "score" (n ++ "--score") = false.
Proof.
  intros Hn Hne. destruct (starts_with _ _) eqn:E; [|reflexivity]. exfalso. apply starts_with_spec in E. destruct E as [rest E].
  rewrite chars_app in E. change (chars "score" ++ rest) with ([] ++ "s"%char :: "c"%char :: (chars "ore" ++ rest)) in E.
  apply nosc_locate in E; [|exact Hn|intros y; discriminate]. destruct E as (a' & E1 & _). symmetry in E1. apply app_eq_nil in E1. destruct n; [congruence|destruct E1; discriminate].
Qed.
Lemma str_replace_suffix n by_ : nosc (chars n) -> str_replace "score" by_ (n ++ "--score") = (n ++ "--" ++ by_)%string.
Proof.
  unfold str_replace. induction n as [|c n IH]; intro Hn; [cbn; now rewrite append_nil_r|].
  assert (nosc (chars n)) as Hn' by (intros x y E; apply (Hn (c :: x) y); cbn; congruence).
  pose proof (starts_score_app (String c n) Hn ltac:(discriminate)) as E0.
  change ((String c n ++ "--score")%string) with (String c (n ++ "--score")) in *. cbn [str_replace_from]. rewrite E0.
  change ((String c n ++ "--" ++ by_)%string) with (String c (n ++ "--" ++ by_)). f_equal. now apply IH.
Qed.

Section Core.
Notation iter := (trimiter R (list (@column R))).
Variable tail : string.
Hypothesis Htail : good_tail tail.
Variable names : list string.
Hypothesis Hform : Forall (name_form tail) names.
Hypothesis Hne : names <> [].
Variable its : list iter.
Hypothesis Hits : its <> [].
Variable rows : list (list R).
Hypothesis Hrows : length rows = length its.
Variable untrimmed : list R.
Hypothesis Hcont : forall t, In t its -> ti_eigs t <> [] /\ Contiguous untrimmed (ti_eigs t).

Let f := mkframe (seq 0 (length its)) (fcols rows (summary_columns names)).

Lemma label_in n s : In n names -> In s suffixes -> In (n ++ s)%string (map fst (f_cols f)).
Proof.
  intros Hn Hs. cbn [f f_cols]. unfold fcols. rewrite frame_labels. rewrite summary_columns_eq. apply in_app_iff. right.
  apply in_flat_map. exists n. split; [exact Hn|]. now apply in_map.
Qed.
Lemma col_length c : In c (f_cols f) -> length (snd c) = length its.
Proof. cbn [f f_cols]. unfold fcols. intro H. apply in_map_iff in H. destruct H as (p & <- & _). cbn. unfold colf. now rewrite map_length. Qed.
Lemma list_index_ok t x : In t its -> In x (ti_eigs t) -> exists i, list_index untrimmed x = Ok i.
Proof.
  intros Ht Hx. unfold list_index. destruct (find_first_spec neq untrimmed x) as [(Ha & _)|(i & _ & ->)].
  - exfalso. destruct (Hcont t Ht) as (_ & p & q & E). specialize (Ha x). assert (In x untrimmed) as Hi by (rewrite E, !in_app_iff; tauto).
    specialize (Ha Hi). cbn in Ha. destruct (Req_EM_T x x); congruence.
  - exists (Z.of_nat i). assert (Z.of_nat i <? 0 = false)%Z as -> by (apply Z.ltb_ge; lia). reflexivity.
Qed.

Lemma best_core :
  ((forall t, In t its -> incl names (map c_name (ti_fits t))) -> best_overall f its untrimmed = Raise ValueError) /\
  ((forall t n, In t its -> In n names -> ~ In n (map c_name (ti_fits t))) -> best_overall f its untrimmed = Raise KeyError).
Proof.
  unfold best_overall. cbv zeta. assert (f_cols f = fcols rows (summary_columns names)) as Ef by reflexivity.
  assert (f_index f = seq 0 (length its)) as Ei by reflexivity.
  set (scores := map (fun c => (fst c, map nabs (snd c))) (df_filter "score" (f_cols f))).
  assert (map fst scores = map (fun n => n ++ "--score")%string names) as Es.
  { unfold scores. rewrite map_map. cbn [fst]. rewrite Ef, (filter_score tail) by assumption. rewrite map_map. cbn [fst].
    rewrite <- (map_map snd (fun n => n ++ "--score")%string), combine_snd. reflexivity. }
  assert (scores <> []) as Hs by (intro E; rewrite E in Es; destruct names; [congruence|discriminate]).
  destruct (best_cols_in col_min scores) as [B1 B2]. specialize (B2 Hs). set (bc := firstn 3 _) in *.
  assert (forall lab, In lab bc -> exists n, In n names /\ lab = (n ++ "--score")%string) as Hbc.
  { intros lab Hl. apply B1 in Hl. rewrite Es in Hl. apply in_map_iff in Hl. destruct Hl as (n & <- & Hn). eauto. }
  destruct (frame_cols_total bc (f_cols f)) as (sel & -> & Hsel & Lsel).
  { intros lab Hl. apply Hbc in Hl. destruct Hl as (n & Hn & ->). apply label_in; [exact Hn|cbn; tauto]. }
  cbn [bind].
  assert (forall n, In n names -> str_remove "--score" (n ++ "--score") = n) as Hrm.
  { intros n Hn. apply str_remove_suffix. eapply name_nosc; [exact Htail|]. rewrite Forall_forall in Hform. now apply Hform. }
  split; intro Hfit.
  - destruct (for_each_total (fun t : iter => for_each (fun n => match cols_named n (ti_fits t) with [] => Raise KeyError | _ => Ok tt end)
       (map (str_remove "--score") bc)) (fun _ => True) its) as (u & -> & _).
    { intros t Ht. destruct (for_each_total (fun n => match cols_named n (ti_fits t) with [] => Raise KeyError | _ => Ok tt end) (fun _ => True)
        (map (str_remove "--score") bc)) as (v & -> & _); [|now exists v].
      intros n' Hn'. apply in_map_iff in Hn'. destruct Hn' as (lab & <- & Hl). apply Hbc in Hl. destruct Hl as (n & Hn & ->). rewrite Hrm by exact Hn.
      specialize (Hfit t Ht n Hn). apply in_map_iff in Hfit. destruct Hfit as (c & <- & Hc).
      assert (In c (cols_named (c_name c) (ti_fits t))) as Hi by (apply filter_In; split; [exact Hc|apply String.eqb_refl]).
      destruct (cols_named _ _); [contradiction|now exists tt]. }
    cbn [bind].
    match goal with |- context [for_each ?g (firstn 3 ?m)] => destruct (for_each_total g (fun _ => True) (firstn 3 m)) as (idx & -> & _) end.
    { intros id Hid. apply firstn_incl in Hid.
      assert (id < length its) as Hlt.
      { match type of Hid with In _ (map fst (sort_values ?m)) => set (rm := m) in * end.
        assert (In id (map fst rm)) as K by (eapply Permutation_in; [apply Permutation_map; symmetry; apply sort_values_perm|exact Hid]).
        unfold rm in K. rewrite map_map in K. cbn [fst] in K. apply in_map_iff in K. destruct K as ([x y] & <- & K). apply in_combine_l in K. rewrite Ei in K. apply in_seq in K. cbn. lia. }
      destruct (nth_error its id) as [t|] eqn:Et; [|apply nth_error_None in Et; lia]. apply nth_error_In in Et.
      rewrite py_get_0, py_get_m1. destruct (Hcont t Et) as [He _]. destruct (ti_eigs t) as [|a l] eqn:El; [congruence|]. cbn [head_opt].
      destruct (last_opt (a :: l)) as [b|] eqn:Eb; [|exfalso; unfold last_opt in Eb; apply nth_error_None in Eb; cbn in Eb; lia].
      change (head_opt (a :: l)) with (Some a). cbv iota.
      destruct (list_index_ok t a Et) as [i ->]; [rewrite El; now left|]. cbn [bind].
      destruct (list_index_ok t b Et) as [j ->]; [rewrite El; unfold last_opt in Eb; eapply nth_error_In; exact Eb|]. cbn [bind]. eauto. }
    cbn [bind].
    destruct bc as [|lab bc']; [congruence|]. destruct sel as [|c0 sel']; [cbn in Lsel; lia|]. cbn [map combine].
    match goal with |- context [for_each ?g (?a :: ?l)] => rewrite (for_each_head g a l ValueError) end; [reflexivity|]. cbn [fst snd].
    destruct (Hbc lab) as (n & Hn & ->); [now left|].
    assert (nosc (chars n)) as Hno by (eapply name_nosc; [exact Htail|]; rewrite Forall_forall in Hform; now apply Hform).
    rewrite !str_replace_suffix by exact Hno. change ("--" ++ "mean_spacing")%string with "--mean_spacing"%string. change ("--" ++ "var_spacing")%string with "--var_spacing"%string.
    match goal with |- context [frame_cols ?labs (f_cols f)] => destruct (frame_cols_total labs (f_cols f)) as (cs & -> & Hcs & Lcs) end.
    { intros x [<-|[<-|[<-|[<-|[<-|[<-|[]]]]]]]; try (apply label_in; [exact Hn|cbn; tauto]); cbn [f f_cols]; unfold fcols; rewrite frame_labels; cbn; tauto. }
    cbn [bind].
    assert (length (snd c0) = length its) as Lc by (apply col_length, Hsel; now left).
    pose proof (argmin_spec (map skipna (map nabs (snd c0))) (notnan_opts _)) as K.
    destruct (argmin (map skipna (map nabs (snd c0)))) as [[r v]|].
    + destruct K as (K & _). assert (r < length its) as Hr.
      { assert (r < length (map skipna (map nabs (snd c0)))) as K' by (apply nth_error_Some; congruence). now rewrite !map_length, Lc in K'. }
      rewrite Ei. rewrite (nth_error_nth' _ 0) by (now rewrite seq_length). rewrite seq_nth by exact Hr. cbn [Nat.add].
      unfold iloc_row. destruct (for_each_total (fun c : string * list R => match nth_error (snd c) r with Some v => Ok v | None => Raise IndexError end) (fun _ => True) cs) as (row & E & _).
      { intros c Hc. apply Hcs, col_length in Hc. destruct (nth_error (snd c) r) as [w|] eqn:Ew; [eauto|apply nth_error_None in Ew; lia]. }
      rewrite E. cbn [bind]. apply series_item_many. apply for_each_Forall2, Forall2_len in E. cbn [List.length] in Lcs. lia.
    + exfalso. destruct (snd c0) as [|x col]; [destruct its; [congruence|discriminate]|]. inversion K as [|? ? K1 _]; subst. unfold skipna in K1. rewrite isnan_R in K1. discriminate.
  - destruct its as [|t its']; [congruence|]. destruct bc as [|lab bc']; [congruence|]. cbn [map].
    rewrite (for_each_head _ t its' KeyError); [reflexivity|]. apply for_each_head.
    destruct (Hbc lab) as (n & Hn & ->); [now left|]. rewrite Hrm by exact Hn. rewrite cols_named_none; [reflexivity|]. apply Hfit; [now left|exact Hn].
Qed.
End Core.

Lemma score_found n : re_search "score" (n ++ "--score") = true.
Proof.
  apply re_search_spec. exists (chars n ++ chars "--"), (chars "score"), []. split; [rewrite chars_app, <- app_assoc, app_nil_r; reflexivity|].
  cbn. repeat constructor; unfold re_char; intros; reflexivity || (right; discriminate) || (left; reflexivity).
Qed.

Lemma summary_score {F} {N : Num F} (rnd store : F -> F) names its f : names <> [] -> summary rnd store names its = Ok f ->
  df_filter "score" (f_cols f) <> [].
Proof.
  intros Hne H. unfold summary in H. destruct (for_each _ its) as [rows|]; [|discriminate]. cbn [bind] in H. injection H as <-.
  cbn [f_cols]. change (df_filter "score" (fcols rows (summary_columns names)) <> []).
  destruct names as [|n names]; [congruence|]. intro E.
  assert (In (n ++ "--score")%string (map fst (fcols rows (summary_columns (n :: names))))) as Hi
    by (unfold fcols; rewrite frame_labels; cbn; tauto).
  apply in_map_iff in Hi. destruct Hi as ([lab c] & K & Hi). cbn [fst] in K. subst lab.
  assert (In ((n ++ "--score")%string, c) (df_filter "score" (fcols rows (summary_columns (n :: names))))) as Hf
    by (apply filter_In; split; [exact Hi|apply score_found]).
  rewrite E in Hf. destruct Hf.
Qed.

Lemma best_of_report rnd store hbos (fit : list R -> result (list column)) tail names values (max_trim : R) max_iters its :
  (forall id l lab, hbos id l = Ok lab -> length lab = length l) -> good_tail tail -> Forall (name_form tail) names ->
  names <> [] ->
  (forall l cols, fit l = Ok cols -> length cols = length names /\ NoDup (map c_name cols)) ->
  trim_iters hbos fit values max_trim max_iters = Ok its ->
  exists f, summary rnd store names its = Ok f /\
    ((forall l cols, fit l = Ok cols -> incl names (map c_name cols)) -> best_overall f its (np_sort values) = Raise ValueError) /\
    ((forall l cols n, fit l = Ok cols -> In n names -> ~ In n (map c_name cols)) -> best_overall f its (np_sort values) = Raise KeyError).
Proof.
  intros Hh Ht Hnf Hne Hf H. pose proof (row_ok hbos fit Hh _ _ _ _ H) as Hrow. pose proof (trim_iters_fits _ _ _ _ _ _ H) as Hfits.
  rewrite Forall_forall in Hfits.
  destruct (summary_ok rnd store names its) as (rows & Hrows & Hsum).
  { intros t Hi. destruct (Hf (ti_eigs t) (ti_fits t)) as (F1 & F2); [apply Hfits, Hi|]. apply In_nth_error in Hi. destruct Hi as (k & Hk).
    destruct (Hrow k t Hk) as (_ & _ & (_ & _ & Hne') & _). auto. }
  assert (Hits : its <> []) by (apply trim_iters_ok in H; destruct H as (? & ? & -> & _); discriminate).
  assert (map ti_id its = seq 0 (length its)) as Eid.
  { apply nth_error_ext. intro k. rewrite nth_error_map. destruct (nth_error its k) as [t|] eqn:Ek.
    - cbn. destruct (Hrow k t Ek) as (-> & _). assert (k < length its) by (apply nth_error_Some; congruence).
      rewrite (nth_error_nth' _ 0) by (now rewrite seq_length). now rewrite seq_nth.
    - symmetry. cbn. apply nth_error_None. rewrite seq_length. now apply nth_error_None. }
  rewrite Eid in Hsum. fold (fcols rows (summary_columns names)) in Hsum. eexists. split; [exact Hsum|].
  destruct (best_core tail Ht names Hnf Hne its Hits rows (eq_sym (Forall2_len _ _ _ Hrows)) (np_sort values)) as [B1 B2].
  { intros t Hi. apply In_nth_error in Hi. destruct Hi as (k & Hk). destruct (Hrow k t Hk) as (_ & _ & (_ & _ & Hne') & Hc & _). auto. }
  split; intro K; [apply B1|apply B2].
  - intros t Hi. apply (K (ti_eigs t)). now apply Hfits.
  - intros t n Hi Hn. apply (K (ti_eigs t)); [now apply Hfits|exact Hn].
Qed.

Section C16.
Variable len_pow : nat -> R -> R.
Variable emd : list R -> result (list (list R)).
Variable nexp : R -> R.
Variable polyfit : list R -> list R -> Z -> result (list R).
Variable uspline : list R -> list R -> Z -> R -> result (R -> R).
Variable fit_exp : list R -> list R -> R * R -> result (R * R).
Variable fit_gompertz : list R -> list R -> R * R * R -> result (R * R * R).
Variable fmt3 fmt2 : R -> string.
Variable defaults : list R.
Variable rnd store : R -> R.
Variable hbos : nat -> list R -> result (list bool).
Hypothesis hbos_len : forall id l lab, hbos id l = Ok lab -> length lab = length l.
Hypothesis fmt3_ok : forall x, Decimals 3 (fmt3 x).
Notation fits polys ss degs gomp det := (fun l =>
  fit_all emd nexp len_pow polyfit uspline fit_exp fit_gompertz fmt3 fmt2 defaults l polys ss degs gomp det).
Notation names := (get_smoother_names fmt3 defaults).

(** C16 is false, [best_overall].  With at least one smoother it never returns, on any numeric type; over the reals, on the table
    and iterations [TrimReport] builds, it raises ValueError for listed smoothing factors and KeyError for heuristic splines only. *)
Theorem C16_best_overall_refuted :
  (forall (F : Type) (N : Num F) (r s : F -> F) ns its f untrimmed, ns <> [] -> summary r s ns its = Ok f ->
     exists e, best_overall f its untrimmed = Raise e) /\
  (forall polys l degs gomp det values (max_trim : R) max_iters its,
     NoDup (names polys (SList l) degs gomp) -> names polys (SList l) degs gomp <> [] ->
     trim_iters hbos (fits polys (SList l) degs gomp det) values max_trim max_iters = Ok its ->
     exists f, summary rnd store (names polys (SList l) degs gomp) its = Ok f /\
       best_overall f its (np_sort values) = Raise ValueError) /\
  (forall degs det values (max_trim : R) max_iters its,
     (forall s, In s defaults -> Decimals 2 (fmt2 s)) ->
     NoDup (get_smoother_names fmt2 defaults [] SHeuristic degs false) -> defaults <> [] -> degs <> [] ->
     trim_iters hbos (fits [] SHeuristic degs false det) values max_trim max_iters = Ok its ->
     exists f, summary rnd store (names [] SHeuristic degs false) its = Ok f /\
       best_overall f its (np_sort values) = Raise KeyError).
Proof.
  split; [|split].
  - intros F N r s ns its f untrimmed Hne H. apply best_raises. eapply summary_score; eassumption.
  - intros polys l degs gomp det values max_trim max_iters its Hd Hne H.
    assert (forall l' cols, fits polys (SList l) degs gomp det l' = Ok cols -> map c_name cols = names polys (SList l) degs gomp) as Hc
      by (intros l' cols E; eapply C34_columns_line_up; exact E).
    destruct (best_of_report rnd store hbos (fits polys (SList l) degs gomp det) (smooth_tail (SList l)) (names polys (SList l) degs gomp) values max_trim max_iters its
      hbos_len (smooth_tail_good _)) with (4 := H) as (f & E & K & _); auto.
    + now apply names_form.
    + intros l' cols E. apply Hc in E. rewrite <- (map_length c_name), E. auto.
    + exists f. split; [exact E|]. apply K. intros l' cols El. apply Hc in El. rewrite El. apply incl_refl.
  - intros degs det values max_trim max_iters its Hf2 Hd2 Hdef Hdeg H.
    destruct (best_of_report rnd store hbos (fits [] SHeuristic degs false det) (smooth_tail (F := R) SHeuristic) (names [] SHeuristic degs false) values max_trim max_iters its
      hbos_len (smooth_tail_good _)) with (4 := H) as (f & E & _ & K); auto.
    + now apply names_form.
    + unfold get_smoother_names. destruct defaults; [congruence|]. destruct degs; [congruence|discriminate].
    + intros l cols E. apply fit_all_names_heuristic in E. rewrite <- (map_length c_name), E. split; [apply heuristic_names_length|assumption].
    + exists f. split; [exact E|]. apply K. intros l cols n El. apply fit_all_names_heuristic in El. rewrite El.
      apply heuristic_names_disjoint. auto.
Qed.

(** C16 is false, [get_best_trimmed]: members of [SmoothMethod] and unknown strings are refused; for the three accepted strings
    the report can be built but [best_overall] raises. *)
Theorem C16_get_best_trimmed_refuted : forall vals smoother degree spline_smooth (max_trim : R) max_iters det,
  let go := get_best_trimmed rnd store hbos (fun polys ss degs gomp => fits polys (SList ss) degs gomp det)
              (fun polys ss degs gomp => names polys (SList ss) degs gomp) vals smoother degree spline_smooth max_trim max_iters in
  let its polys ss degs gomp := trim_iters hbos (fits polys (SList ss) degs gomp det) vals max_trim max_iters in
  (forall polys ss degs gomp,
     In (smoother, (polys, ss, degs, gomp)) [(SMStrPoly, ([degree], [], [], false));
       (SMStrSpline, ([], [spline_smooth], [degree], false)); (SMStrGompertz, ([], [], [], true))] ->
     forall i, its polys ss degs gomp = Ok i -> go = Raise ValueError) /\
  (~ In smoother [SMStrPoly; SMStrSpline; SMStrGompertz] -> go = Raise ValueError).
Proof.
  intros vals smoother degree sm max_trim max_iters det go its.
  assert (forall polys ss degs gomp i, its polys ss degs gomp = Ok i -> NoDup (names polys (SList ss) degs gomp) ->
     names polys (SList ss) degs gomp <> [] ->
     (let! r := trim_report rnd store hbos (fits polys (SList ss) degs gomp det) (names polys (SList ss) degs gomp) vals max_trim max_iters in
      let '(f, its', untrimmed) := r in let! best := best_overall f its' untrimmed in
      match best with [] => Raise IndexError | (s, e) :: _ => Ok (trim_manually vals s e) end) = Raise ValueError) as Hrun.
  { intros polys ss degs gomp i Ei Hd Hne. destruct C16_best_overall_refuted as (_ & K & _).
    destruct (K polys ss degs gomp det vals max_trim max_iters i Hd Hne Ei) as (f & Ef & Eb).
    unfold trim_report. fold (its polys ss degs gomp). rewrite Ei. cbn [bind]. rewrite Ef. cbn [bind]. rewrite Eb. reflexivity. }
  assert (forall polys ss degs gomp, In (smoother, (polys, ss, degs, gomp)) [(SMStrPoly, ([degree], [], [], false));
       (SMStrSpline, ([], [sm], [degree], false)); (SMStrGompertz, ([], [], [], true))] ->
     forall i, its polys ss degs gomp = Ok i -> go = Raise ValueError) as G.
  { intros polys ss degs gomp Hin i Ei. assert (forall x : string, NoDup [x]) as N1 by (intro; repeat constructor; cbn; tauto).
    destruct Hin as [E|[E|[E|[]]]]; injection E as <- <- <- <- <-; unfold go, get_best_trimmed; (eapply Hrun; [exact Ei|..]); try discriminate; cbn; apply N1. }
  split; [exact G|].
  intro Hn. unfold go, get_best_trimmed. destruct smoother; try reflexivity; exfalso; apply Hn; cbn; tauto.
Qed.
End C16.
Print Assumptions C16_best_overall_refuted.
Print Assumptions C16_get_best_trimmed_refuted.

(** C16 is false: on any numeric type, binary64 included, [get_best_trimmed] never returns, whatever is fitted. *)
Theorem C16_get_best_trimmed_any_refuted : forall (F : Type) (N : Num F) (rnd store : F -> F) hbos fit (fmt3 : F -> string) defaults
    (vals : list F) smoother degree spline_smooth max_trim max_iters,
  exists e, get_best_trimmed rnd store hbos fit (fun polys ss degs gomp => get_smoother_names fmt3 defaults polys (SList ss) degs gomp)
    vals smoother degree spline_smooth max_trim max_iters = Raise e.
Proof.
  intros. unfold get_best_trimmed.
  assert (forall polys ss degs gomp (k : @frame F * list (trimiter F (list column)) * list F -> result (list F)),
    get_smoother_names fmt3 defaults polys (SList ss) degs gomp <> [] ->
    (forall f its u e, best_overall f its u = Raise e -> k (f, its, u) = Raise e) ->
    exists e, (let! r := trim_report rnd store hbos (fit polys ss degs gomp) (get_smoother_names fmt3 defaults polys (SList ss) degs gomp)
      vals max_trim max_iters in k r) = Raise e) as K.
  { intros polys ss degs gomp k Hne Hk. unfold trim_report. destruct (trim_iters _ _ _ _ _) as [its|e]; [|now exists e]. cbn [bind].
    destruct (summary _ _ _ _) as [f|e] eqn:Ef; [|now exists e]. cbn [bind].
    destruct (best_raises f its (np_sort vals)) as [e He]; [eapply summary_score; eassumption|]. exists e. now apply Hk. }
  destruct smoother; try (exists ValueError; reflexivity); apply K; try discriminate; intros f its u e ->; reflexivity.
Qed.
Print Assumptions C16_get_best_trimmed_any_refuted.

Example C16_case :
  (let! r := trim_report rp_id rp_id rp_hbos (rp_fit [3%Z] (SList [1#2]%Q)) (rp_names [3%Z] (SList [1#2]%Q)) rp_vals (1#2)%Q 3 in
   let '(f, its, u) := r in let! _ := best_overall f its u in Ok tt) = Raise ValueError /\
  (let! r := trim_report rp_id rp_id rp_hbos (rp_fit [] SHeuristic) (rp_names [] SHeuristic) rp_vals (1#2)%Q 3 in
   let '(f, its, u) := r in Ok (length its, u)) = Ok (2, [1; 2; 4; 90]%Q) /\
  (let! r := trim_report rp_id rp_id rp_hbos (rp_fit [] SHeuristic) (rp_names [] SHeuristic) rp_vals (1#2)%Q 3 in
   let '(f, its, u) := r in let! _ := best_overall f its u in Ok tt) = Raise KeyError /\
  get_best_trimmed rp_id rp_id rp_hbos (fun p s _ _ => rp_fit p (SList s)) (fun p s _ _ => rp_names p (SList s))
    rp_vals SMStrPoly 3 (1#2)%Q (1#2)%Q 3 = Raise ValueError /\
  get_best_trimmed rp_id rp_id rp_hbos (fun p s _ _ => rp_fit p (SList s)) (fun p s _ _ => rp_names p (SList s))
    rp_vals SMPoly 3 (1#2)%Q (1#2)%Q 3 = Raise ValueError.
Proof. splits; vm_compute; reflexivity. Qed.
