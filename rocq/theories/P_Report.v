(** Proofs about the summary table and automatic unfolding (model: M_Report). *)
From Coq Require Import String Ascii List ZArith Bool Arith Lia Reals Lra Sorting.Permutation Sorting.Sorted.
From Verif Require Import Base S_Order S_EigVals S_Trim S_Report M_EigVals M_Trim M_Smooth M_Report
  P_Order P_Step P_EigVals P_Trim P_TrimStat P_TrimFull P_Smooth P_ReportStr.
Import ListNotations.
Local Notation length := List.length.

Lemma for_each_Forall2 {A B} (f : A -> result B) l : forall r, for_each f l = Ok r -> Forall2 (fun a b => f a = Ok b) l r.
Proof.
  induction l as [|a l IH]; intros r H; cbn [for_each] in H; [injection H as <-; constructor|].
  destruct (f a) as [b|] eqn:E; [|discriminate]. cbn [bind] in H. destruct (for_each f l); [|discriminate]. cbn [bind] in H.
  injection H as <-. constructor; auto.
Qed.
Lemma for_each_total {A B} (f : A -> result B) (P : B -> Prop) l : (forall a, In a l -> exists b, f a = Ok b /\ P b) ->
  exists r, for_each f l = Ok r /\ Forall P r.
Proof.
  induction l as [|a l IH]; intros H; cbn [for_each]; [exists []; split; [reflexivity|constructor]|].
  destruct (H a) as (b & -> & Hb); [now left|]. destruct IH as (r & -> & Hr); [intros; apply H; now right|].
  cbn [bind]. eexists. split; [reflexivity|]. constructor; auto.
Qed.
Lemma Forall2_nth {A B} (P : A -> B -> Prop) l l' : Forall2 P l l' -> forall k a, nth_error l k = Some a ->
  exists b, nth_error l' k = Some b /\ P a b.
Proof.
  induction 1; intros [|k] a' H'; try discriminate; cbn in *; [injection H' as <-; eauto|eauto].
Qed.

Lemma Forall2_len {A B} (P : A -> B -> Prop) l l' : Forall2 P l l' -> length l = length l'.
Proof. induction 1; cbn; congruence. Qed.

Section Row.
Context {F : Type} {N : Num F}.
Variable rnd store : F -> F.
Notation col := (@column F).

Lemma cols_named_unique (all : list col) c : NoDup (map c_name all) -> In c all -> cols_named (c_name c) all = [c].
Proof.
  unfold cols_named. induction all as [|a all IH]; intros Hnd Hi; [contradiction|]. cbn [map] in Hnd. inversion Hnd as [|? ? Ha Hr]; subst.
  cbn [filter]. destruct (String.eqb_spec (c_name a) (c_name c)) as [E|E].
  - destruct Hi as [->|Hi]; [|exfalso; apply Ha; rewrite E; now apply in_map]. f_equal.
    assert (forall l : list col, (forall x, In x l -> c_name x <> c_name c) -> filter (fun c0 => String.eqb (c_name c0) (c_name c)) l = []) as K.
    { induction l as [|x l IHl]; intros H; [reflexivity|]. cbn [filter]. destruct (String.eqb_spec (c_name x) (c_name c)) as [E'|E'].
      - exfalso. apply (H x); [now left|assumption].
      - apply IHl. intros y Hy. apply H. now right. }
    apply K. intros x Hx E'. apply Ha. rewrite <- E'. now apply in_map.
  - destruct Hi as [->|Hi]; [congruence|]. auto.
Qed.
Lemma cols_named_none (all : list col) n : ~ In n (map c_name all) -> cols_named n all = [].
Proof.
  unfold cols_named. induction all as [|x l IHl]; intros H; [reflexivity|]. cbn [filter]. destruct (String.eqb_spec (c_name x) n) as [E'|E'].
  - exfalso. apply H. left. assumption.
  - apply IHl. intros Hi. apply H. now right.
Qed.
Lemma cols_named_two (all : list col) i j a b : i <> j -> nth_error all i = Some a -> nth_error all j = Some b -> c_name a = c_name b ->
  (2 <= length (cols_named (c_name a) all))%nat.
Proof.
  assert (forall (l : list col) k x, nth_error l k = Some x -> c_name x = c_name a -> (1 <= length (cols_named (c_name a) l))%nat) as K.
  { intros l k x H E. apply nth_error_In in H.
    assert (In x (cols_named (c_name a) l)) by (apply filter_In; split; [assumption|now apply String.eqb_eq]).
    destruct (cols_named (c_name a) l); [contradiction|cbn; lia]. }
  intros Hij Hi Hj E. revert i j Hij Hi Hj. induction all as [|x l IH]; intros [|i] [|j] Hij Hi Hj; try discriminate; try congruence.
  - cbn in Hi, Hj. injection Hi as ->. unfold cols_named. cbn [filter]. rewrite String.eqb_refl. cbn [List.length].
    fold (cols_named (c_name a) l). specialize (K l j b Hj). apply Nat.succ_le_mono in K; [assumption|congruence].
  - cbn in Hi, Hj. injection Hj as ->. unfold cols_named. cbn [filter]. rewrite E, String.eqb_refl. cbn [List.length]. rewrite <- E.
    fold (cols_named (c_name a) l). specialize (K l i a Hi eq_refl). lia.
  - cbn in Hi, Hj. unfold cols_named. cbn [filter]. fold (cols_named (c_name a) l).
    assert (2 <= length (cols_named (c_name a) l))%nat by (apply (IH i j); congruence).
    destruct (String.eqb _ _); cbn; lia.
Qed.

(** The statistics written for one column, in order. *)
Definition cells (c : col) : list F :=
  let '(mean, var, score) := evaluate_unfolding (c_unfolded c) in [store mean; store var; store (c_msqe c); store score].
Lemma py_set_at (row : list F) i z v : z = Z.of_nat i -> (i < length row)%nat -> py_set row z v = Ok (set_nth row i v).
Proof. intros -> H. now apply py_set_ok. Qed.

Lemma fill_row_ok (all : list col) : NoDup (map c_name all) -> forall cs j row, incl cs all ->
  (4 * (j + length cs) + 3 <= length row)%nat ->
  exists row', fill_row store all cs (Z.of_nat j) row = Ok row' /\ length row' = length row /\
    (forall i, (i < 4 * j + 3)%nat -> nth_error row' i = nth_error row i) /\
    (forall k c m, nth_error cs k = Some c -> (m < 4)%nat -> nth_error row' (4 * (j + k) + 3 + m) = nth_error (cells c) m).
Proof.
  intros Hnd. induction cs as [|c cs IH]; intros j row Hin Hlen.
  - exists row. cbn [fill_row]. split; [reflexivity|]. split; [reflexivity|]. split; [reflexivity|]. intros [|k] c m H; discriminate.
  - cbn [fill_row]. destruct (evaluate_unfolding (c_unfolded c)) as [[mean var] score] eqn:Ee. cbn [List.length] in Hlen.
    rewrite (py_set_at row (4 * j + 3)) by lia. cbn [bind].
    rewrite (py_set_at _ (4 * j + 4)) by (rewrite ?set_nth_length; lia). cbn [bind].
    rewrite cols_named_unique by (auto; apply Hin; now left).
    rewrite (py_set_at _ (4 * j + 5)) by (rewrite ?set_nth_length; lia). cbn [bind].
    rewrite (py_set_at _ (4 * j + 6)) by (rewrite ?set_nth_length; lia). cbn [bind].
    replace (Z.of_nat j + 1)%Z with (Z.of_nat (S j)) by lia.
    match goal with |- context [fill_row store all cs _ ?r] => set (row4 := r) end.
    assert (L4 : length row4 = length row) by (unfold row4; now rewrite !set_nth_length).
    destruct (IH (S j) row4) as (row' & E & L & Hlow & Hcells).
    { intros x Hx. apply Hin. now right. }
    { rewrite L4. lia. }
    exists row'. split; [exact E|]. split; [congruence|]. split.
    + intros i Hi. rewrite Hlow by lia. unfold row4. rewrite !set_nth_other by lia. reflexivity.
    + intros [|k] c' m Hk Hm.
      * cbn in Hk. injection Hk as <-. rewrite Hlow by lia. unfold cells. rewrite Ee. unfold row4.
        destruct m as [|[|[|[|m]]]]; [..|lia]; cbn [nth_error].
        -- replace (4 * (j + 0) + 3 + 0)%nat with (4 * j + 3)%nat by lia. do 3 rewrite set_nth_other by lia. rewrite set_nth_same by lia. reflexivity.
        -- replace (4 * (j + 0) + 3 + 1)%nat with (4 * j + 4)%nat by lia.
           rewrite set_nth_other by lia. rewrite set_nth_other by lia. rewrite set_nth_same by (rewrite !set_nth_length; lia). reflexivity.
        -- replace (4 * (j + 0) + 3 + 2)%nat with (4 * j + 5)%nat by lia.
           rewrite set_nth_other by lia. rewrite set_nth_same by (rewrite !set_nth_length; lia). reflexivity.
        -- replace (4 * (j + 0) + 3 + 3)%nat with (4 * j + 6)%nat by lia.
           rewrite set_nth_same by (rewrite !set_nth_length; lia). reflexivity.
      * cbn in Hk. replace (4 * (j + S k) + 3 + m)%nat with (4 * (S j + k) + 3 + m)%nat by lia. now apply Hcells.
Qed.

(** A repeated label stops the table. *)
Lemma fill_row_dup (all : list col) : forall cs j row, (4 * (j + length cs) + 3 <= length row)%nat ->
  (exists c, In c cs /\ length (cols_named (c_name c) all) <> 1%nat) ->
  fill_row store all cs (Z.of_nat j) row = Raise ValueError.
Proof.
  induction cs as [|c cs IH]; intros j row Hlen (d & Hd & Hn); [contradiction|].
  cbn [fill_row]. destruct (evaluate_unfolding (c_unfolded c)) as [[mean var] score]. cbn [List.length] in Hlen.
  rewrite (py_set_at row (4 * j + 3)) by lia. cbn [bind].
  rewrite (py_set_at _ (4 * j + 4)) by (rewrite ?set_nth_length; lia). cbn [bind].
  destruct (cols_named (c_name c) all) as [|m [|m' rest]] eqn:E; [reflexivity| |reflexivity].
  rewrite (py_set_at _ (4 * j + 5)) by (rewrite ?set_nth_length; lia). cbn [bind].
  rewrite (py_set_at _ (4 * j + 6)) by (rewrite ?set_nth_length; lia). cbn [bind].
  replace (Z.of_nat j + 1)%Z with (Z.of_nat (S j)) by lia. apply IH.
  - rewrite !set_nth_length. lia.
  - destruct Hd as [->|Hd]; [exfalso; apply Hn; rewrite E; reflexivity|eauto].
Qed.
End Row.

Section Fits.
Context {F U : Type} {N : Num F}.
Variable hbos : nat -> list F -> result (list bool).
Variable fit_all : list F -> result U.
Lemma new_iter_fits id o e t : new_iter hbos fit_all id o e = Ok t -> fit_all (ti_eigs t) = Ok (ti_fits t).
Proof.
  unfold new_iter. intro H. destruct (hbos id e); [|discriminate]. cbn [bind] in H. destruct (outlier_labels _); [|discriminate]. cbn [bind] in H.
  destruct (fit_all e) eqn:E; [|discriminate]. cbn [bind] in H. injection H as <-. exact E.
Qed.
Lemma trim_loop_fits max_trim k : forall cur its, trim_loop hbos fit_all k max_trim cur = Ok its ->
  Forall (fun t => fit_all (ti_eigs t) = Ok (ti_fits t)) its.
Proof.
  induction k as [|k IH]; intros cur its H; cbn [trim_loop] in H; [injection H as <-; constructor|].
  destruct (next_iter hbos fit_all cur) as [t|] eqn:E; [|discriminate]. cbn [bind] in H. apply new_iter_fits in E.
  destruct (ngt _ _); [injection H as <-; constructor|]. destruct (is_all_inliers t); [injection H as <-; repeat constructor; assumption|].
  destruct (trim_loop hbos fit_all k max_trim t) eqn:E2; [|discriminate]. cbn [bind] in H. injection H as <-. constructor; eauto.
Qed.
Lemma trim_iters_fits values max_trim max_iters its : trim_iters hbos fit_all values max_trim max_iters = Ok its ->
  Forall (fun t => fit_all (ti_eigs t) = Ok (ti_fits t)) its.
Proof.
  unfold trim_iters. intro H. destruct (new_iter _ _ _ _ _) eqn:E; [|discriminate]. cbn [bind] in H. apply new_iter_fits in E.
  destruct (trim_loop _ _ _ _ _) eqn:E2; [|discriminate]. cbn [bind] in H. injection H as <-. constructor; [assumption|]. eapply trim_loop_fits; eassumption.
Qed.
End Fits.

(** ** Labels *)
Lemma append_length a b : String.length (a ++ b) = (String.length a + String.length b)%nat.
Proof. induction a; cbn; congruence. Qed.
Lemma chars_length s : length (chars s) = String.length s.
Proof. induction s; cbn; congruence. Qed.
Lemma suffix_inj n n' s s' : In s suffixes -> In s' suffixes -> (n ++ s)%string = (n' ++ s')%string -> n = n' /\ s = s'.
Proof.
  intros Hs Hs' E. apply (f_equal chars) in E. rewrite !chars_app in E.
  assert (forall (x : list ascii) (s : string) (l r : list ascii), chars s = l ++ r -> x ++ chars s = (x ++ l) ++ r) as K
    by (intros x t l r ->; apply app_assoc).
  assert (forall l l' r r', length r = length r' -> chars s = l ++ r -> chars s' = l' ++ r' -> r = r') as T.
  { intros l l' r r' Hl E1 E2. rewrite (K _ _ _ _ E1), (K _ _ _ _ E2) in E. apply app_len_inj in E; tauto. }
  destruct Hs as [<-|[<-|[<-|[<-|[]]]]], Hs' as [<-|[<-|[<-|[<-|[]]]]];
    try (apply app_inv_tail in E; apply chars_inj in E; split; [assumption|reflexivity]); exfalso.
  - specialize (T (chars "--mea") (chars "--va") (chars "n_spacing") (chars "r_spacing") eq_refl eq_refl eq_refl). discriminate.
  - specialize (T (chars "--mean_spacin") (chars "--msq") (chars "g") (chars "e") eq_refl eq_refl eq_refl). discriminate.
  - specialize (T (chars "--mean_spacin") (chars "--scor") (chars "g") (chars "e") eq_refl eq_refl eq_refl). discriminate.
  - specialize (T (chars "--va") (chars "--mea") (chars "r_spacing") (chars "n_spacing") eq_refl eq_refl eq_refl). discriminate.
  - specialize (T (chars "--var_spacin") (chars "--msq") (chars "g") (chars "e") eq_refl eq_refl eq_refl). discriminate.
  - specialize (T (chars "--var_spacin") (chars "--scor") (chars "g") (chars "e") eq_refl eq_refl eq_refl). discriminate.
  - specialize (T (chars "--msq") (chars "--mean_spacin") (chars "e") (chars "g") eq_refl eq_refl eq_refl). discriminate.
  - specialize (T (chars "--msq") (chars "--var_spacin") (chars "e") (chars "g") eq_refl eq_refl eq_refl). discriminate.
  - specialize (T (chars "--ms") (chars "--sco") (chars "qe") (chars "re") eq_refl eq_refl eq_refl). discriminate.
  - specialize (T (chars "--scor") (chars "--mean_spacin") (chars "e") (chars "g") eq_refl eq_refl eq_refl). discriminate.
  - specialize (T (chars "--scor") (chars "--var_spacin") (chars "e") (chars "g") eq_refl eq_refl eq_refl). discriminate.
  - specialize (T (chars "--sco") (chars "--ms") (chars "re") (chars "qe") eq_refl eq_refl eq_refl). discriminate.
Qed.
Definition trims : list string := ["trim_percent"; "trim_low"; "trim_high"]%string.
Lemma trim_suffix t n s : In t trims -> In s suffixes -> t <> (n ++ s)%string.
Proof.
  intros Ht Hs E. apply (f_equal chars) in E. rewrite chars_app in E.
  assert (exists l c, chars s = l ++ [c] /\ (c = "g"%char \/ c = "e"%char)) as (l & c & El & Hc).
  { destruct Hs as [<-|[<-|[<-|[<-|[]]]]];
      [exists (chars "--mean_spacin"), "g"%char|exists (chars "--var_spacin"), "g"%char|exists (chars "--msq"), "e"%char|exists (chars "--scor"), "e"%char]; auto. }
  assert (exists l' c', chars t = l' ++ [c'] /\ c' <> "g"%char /\ c' <> "e"%char) as (l' & c' & El' & H1 & H2).
  { destruct Ht as [<-|[<-|[<-|[]]]];
      [exists (chars "trim_percen"), "t"%char|exists (chars "trim_lo"), "w"%char|exists (chars "trim_hig"), "h"%char];
      (split; [reflexivity|split; discriminate]). }
  rewrite El, El', app_assoc in E. apply app_inj_tail in E. destruct E as [_ ->]. tauto.
Qed.
Lemma summary_columns_eq names : summary_columns names = trims ++ flat_map (fun n => map (String.append n) suffixes) names.
Proof. reflexivity. Qed.
Lemma labels_nodup names : NoDup names -> NoDup (summary_columns names).
Proof.
  intro H. rewrite summary_columns_eq. apply NoDup_app_intro.
  - repeat constructor; cbn; intuition discriminate.
  - rewrite flat_map_prod. apply NoDup_map_inj.
    + intros [n s] [n' s'] Hx Hy E. apply in_prod_iff in Hx, Hy. cbn [fst snd] in E. apply suffix_inj in E; [|tauto..].
      destruct E as [-> ->]. reflexivity.
    + apply NoDup_list_prod; [assumption|]. repeat constructor; cbn; intuition discriminate.
  - intros x H1 H2. apply in_flat_map in H2. destruct H2 as (n & _ & H2). apply in_map_iff in H2. destruct H2 as (s & E & Hs).
    symmetry in E. revert E. now apply trim_suffix.
Qed.
Lemma summary_columns_length names : length (summary_columns names) = (4 * length names + 3)%nat.
Proof.
  rewrite summary_columns_eq, app_length. cbn [List.length trims]. rewrite Nat.add_comm. f_equal.
  induction names; cbn [flat_map List.length]; [reflexivity|]. rewrite app_length, IHnames. cbn. lia.
Qed.

Section Table.
Context {F : Type} {N : Num F}.
Variable rnd store : F -> F.
Notation iter := (trimiter F (list (@column F))).

(** The row of one iteration. *)
Definition row_spec (t : iter) (row : list F) : Prop :=
  exists lo hi, lower_percent_removed rnd t = Ok lo /\ upper_percent_removed rnd t = Ok hi /\
    length row = (4 * length (ti_fits t) + 3)%nat /\
    nth_error row 0 = Some (store (percent_removed rnd t)) /\ nth_error row 1 = Some (store lo) /\ nth_error row 2 = Some (store hi) /\
    forall j c m, nth_error (ti_fits t) j = Some c -> (m < 4)%nat -> nth_error row (4 * j + 3 + m) = nth_error (cells store c) m.
Lemma percents_ok (t : iter) : ti_eigs t <> [] ->
  exists lo hi, lower_percent_removed rnd t = Ok lo /\ upper_percent_removed rnd t = Ok hi.
Proof.
  intro H. unfold lower_percent_removed, upper_percent_removed. rewrite py_get_0, py_get_m1.
  destruct (ti_eigs t) as [|a l] eqn:E; [congruence|]. cbn [head_opt].
  destruct (last_opt (a :: l)) as [b|] eqn:El; [do 2 eexists; split; reflexivity|]. exfalso. unfold last_opt in El. apply nth_error_None in El. cbn in El. lia.
Qed.
Lemma summary_row_ok (t : iter) : ti_eigs t <> [] -> NoDup (map c_name (ti_fits t)) ->
  exists row, summary_row rnd store (length (ti_fits t)) t = Ok row /\ row_spec t row.
Proof.
  intros He Hn. destruct (percents_ok t He) as (lo & hi & Elo & Ehi). unfold summary_row.
  set (row0 := repeat n0 (length (ti_fits t) * 4 + 3)). assert (length row0 = length (ti_fits t) * 4 + 3)%nat as L0 by apply repeat_length.
  rewrite (py_set_at row0 0) by lia. cbn [bind]. rewrite Elo. cbn [bind].
  rewrite (py_set_at _ 1) by (rewrite ?set_nth_length; lia). cbn [bind]. rewrite Ehi. cbn [bind].
  rewrite (py_set_at _ 2) by (rewrite ?set_nth_length; lia). cbn [bind].
  match goal with |- context [fill_row store _ _ _ ?r] => set (row3 := r) end.
  assert (L3 : length row3 = length row0) by (unfold row3; now rewrite !set_nth_length).
  destruct (fill_row_ok store (ti_fits t) Hn (ti_fits t) 0 row3) as (row' & E & L & Hlow & Hcells); [apply incl_refl|lia|].
  exists row'. split; [exact E|]. exists lo, hi. split; [assumption|]. split; [assumption|]. split; [lia|].
  split; [|split; [|split]].
  - rewrite Hlow by lia. unfold row3. rewrite !set_nth_other by lia. apply set_nth_same. lia.
  - rewrite Hlow by lia. unfold row3. rewrite set_nth_other by lia. apply set_nth_same. rewrite !set_nth_length. lia.
  - rewrite Hlow by lia. unfold row3. apply set_nth_same. rewrite !set_nth_length. lia.
  - intros j c m Hj Hm. now apply (Hcells j c m).
Qed.
Lemma summary_row_dup (t : iter) i j a b : ti_eigs t <> [] -> i <> j -> nth_error (ti_fits t) i = Some a ->
  nth_error (ti_fits t) j = Some b -> c_name a = c_name b -> summary_row rnd store (length (ti_fits t)) t = Raise ValueError.
Proof.
  intros He Hij Hi Hj E. destruct (percents_ok t He) as (lo & hi & Elo & Ehi). unfold summary_row.
  set (row0 := repeat n0 (length (ti_fits t) * 4 + 3)). assert (length row0 = length (ti_fits t) * 4 + 3)%nat as L0 by apply repeat_length.
  rewrite (py_set_at row0 0) by lia. cbn [bind]. rewrite Elo. cbn [bind].
  rewrite (py_set_at _ 1) by (rewrite ?set_nth_length; lia). cbn [bind]. rewrite Ehi. cbn [bind].
  rewrite (py_set_at _ 2) by (rewrite ?set_nth_length; lia). cbn [bind].
  apply (fill_row_dup store (ti_fits t) (ti_fits t) 0).
  - rewrite !set_nth_length. lia.
  - exists a. split; [eapply nth_error_In; eassumption|]. pose proof (cols_named_two _ _ _ _ _ Hij Hi Hj E). lia.
Qed.

Variable names : list string.
Definition colf (rows : list (list F)) (p : nat) : list F := map (fun r => nth p r n0) rows.
Lemma summary_ok (its : list iter) : (forall t, In t its -> ti_eigs t <> [] /\ length (ti_fits t) = length names /\ NoDup (map c_name (ti_fits t))) ->
  exists rows, Forall2 row_spec its rows /\
    summary rnd store names its = Ok (mkframe (map ti_id its)
      (map (fun p => (snd p, colf rows (fst p))) (combine (seq 0 (length (summary_columns names))) (summary_columns names)))).
Proof.
  intro H. destruct (for_each_total (summary_row rnd store (length names)) (fun _ => True) its) as (rows & E & _).
  { intros t Ht. destruct (H t Ht) as (H1 & H2 & H3). rewrite <- H2. destruct (summary_row_ok t H1 H3) as (row & Er & _). eauto. }
  exists rows. split.
  - apply for_each_Forall2 in E. clear -E H. induction E as [|t row its rows E1 E2 IH]; constructor.
    + destruct (H t) as (H1 & H2 & H3); [now left|]. rewrite <- H2 in E1. destruct (summary_row_ok t H1 H3) as (row' & Er & Hr). congruence.
    + apply IH. intros; apply H; now right.
  - unfold summary. rewrite E. reflexivity.
Qed.
Lemma frame_nth rows (h : list string) o p lab : nth_error h p = Some lab ->
  nth_error (map (fun q : nat * string => (snd q, colf rows (fst q))) (combine (seq o (length h)) h)) p = Some (lab, colf rows (o + p)).
Proof.
  revert o p. induction h as [|x h IH]; intros o [|p] H; try discriminate; cbn in *.
  - injection H as ->. now rewrite Nat.add_0_r.
  - rewrite IH by assumption. do 3 f_equal. lia.
Qed.
Lemma colf_nth rows p r row v : nth_error rows r = Some row -> nth_error row p = Some v -> nth_error (colf rows p) r = Some v.
Proof. intros H1 H2. unfold colf. rewrite nth_error_map, H1. cbn. f_equal. now apply nth_error_nth. Qed.
Lemma frame_labels rows (h : list string) : forall o,
  map fst (map (fun q : nat * string => (snd q, colf rows (fst q))) (combine (seq o (length h)) h)) = h.
Proof. induction h; intros; cbn; [reflexivity|]. now rewrite IHh. Qed.
End Table.

(** ** Looking columns up *)
Section Lookup.
Context {F : Type} {N : Num F}.
Variable tail : string.
Hypothesis Htail : good_tail tail.
Definition fcols (rows : list (list F)) (h : list string) : list (string * list F) :=
  map (fun p : nat * string => (snd p, colf rows (fst p))) (combine (seq 0 (length h)) h).
Definition block (rows : list (list F)) (jn : nat * string) : list (string * list F) :=
  [((snd jn ++ "--mean_spacing")%string, colf rows (4 * fst jn + 3)); ((snd jn ++ "--var_spacing")%string, colf rows (4 * fst jn + 4));
   ((snd jn ++ "--msqe")%string, colf rows (4 * fst jn + 5)); ((snd jn ++ "--score")%string, colf rows (4 * fst jn + 6))].
Lemma fcols_eq rows names : fcols rows (summary_columns names) =
  [("trim_percent", colf rows 0); ("trim_low", colf rows 1); ("trim_high", colf rows 2)]%string
  ++ flat_map (block rows) (combine (seq 0 (length names)) names).
Proof.
  unfold fcols, summary_columns. cbn [app List.length seq combine map fst snd]. do 3 f_equal.
  enough (forall j, map (fun p : nat * string => (snd p, colf rows (fst p)))
      (combine (seq (4 * j + 3) (length (flat_map (fun n => [n ++ "--mean_spacing"; n ++ "--var_spacing"; n ++ "--msqe"; n ++ "--score"]%string) names)))
         (flat_map (fun n => [n ++ "--mean_spacing"; n ++ "--var_spacing"; n ++ "--msqe"; n ++ "--score"]%string) names))
      = flat_map (block rows) (combine (seq j (length names)) names)) as K by exact (K 0%nat).
  induction names as [|n names IH]; intro j; [reflexivity|].
  cbn [flat_map app List.length seq combine map fst snd block]. specialize (IH (S j)).
  replace (S (S (S (S (4 * j + 3))))) with (4 * S j + 3)%nat by lia. rewrite IH.
  replace (S (4 * j + 3)) with (4 * j + 4)%nat by lia. replace (S (4 * j + 4)) with (4 * j + 5)%nat by lia.
  replace (S (4 * j + 5)) with (4 * j + 6)%nat by lia. reflexivity.
Qed.
Lemma filter_flat_map {A B} (f : B -> bool) (g : A -> list B) l : filter f (flat_map g l) = flat_map (fun a => filter f (g a)) l.
Proof. induction l; cbn; [reflexivity|]. now rewrite filter_app, IHl. Qed.

Lemma suffix_in k s : nth_error suffixes k = Some s -> In s suffixes.
Proof. apply nth_error_In. Qed.
Lemma search_score_b n s : name_form tail n -> In s suffixes -> re_search "score" (n ++ s) = String.eqb s "--score".
Proof.
  intros Hn Hs. apply eq_true_iff_eq. rewrite (search_score tail) by assumption. symmetry. apply String.eqb_eq.
Qed.
Lemma search_full_b n n' s : name_form tail n -> name_form tail n' -> In s suffixes ->
  re_search (n ++ "--score") (n' ++ s) = String.eqb n n' && String.eqb s "--score".
Proof.
  intros Hn Hn' Hs. apply eq_true_iff_eq. rewrite (search_full tail) by assumption. rewrite andb_true_iff, !String.eqb_eq. reflexivity.
Qed.
Lemma filter_score_pairs rows (l : list (nat * string)) : Forall (name_form tail) (map snd l) ->
  filter (fun c => re_search "score" (fst c)) (flat_map (block rows) l) =
  map (fun jn => ((snd jn ++ "--score")%string, colf rows (4 * fst jn + 6))) l.
Proof.
  rewrite filter_flat_map. induction l as [|[i n] l IH]; intros H; [reflexivity|]. cbn [map] in H. inversion H as [|? ? Hn Hns]; subst.
  cbn [flat_map map fst snd]. rewrite IH by assumption. unfold block. cbn [filter fst snd] in *.
  rewrite !search_score_b by (assumption || (cbn; tauto)). reflexivity.
Qed.
Lemma combine_snd (names : list string) o : map snd (combine (seq o (length names)) names) = names.
Proof. revert o. induction names; intros; cbn; [reflexivity|]. now rewrite IHnames. Qed.
Lemma combine_nth (names : list string) : forall o j n, nth_error names j = Some n ->
  nth_error (combine (seq o (length names)) names) j = Some ((o + j)%nat, n).
Proof.
  induction names as [|x l IH]; intros o [|j] n H; try discriminate; cbn in *.
  - injection H as ->. now rewrite Nat.add_0_r.
  - rewrite IH with (n := n) by assumption. do 2 f_equal. lia.
Qed.
Lemma filter_score rows names : Forall (name_form tail) names ->
  df_filter "score" (fcols rows (summary_columns names)) =
  map (fun jn => ((snd jn ++ "--score")%string, colf rows (4 * fst jn + 6))) (combine (seq 0 (length names)) names).
Proof.
  intro H. rewrite fcols_eq. unfold df_filter. rewrite filter_app.
  change (filter _ [("trim_percent"%string, _); _; _]) with (@nil (string * list F)). cbn [app].
  apply filter_score_pairs. now rewrite combine_snd.
Qed.
Lemma filter_label_none rows n (l : list (nat * string)) : name_form tail n -> Forall (name_form tail) (map snd l) -> ~ In n (map snd l) ->
  filter (fun c => re_search (n ++ "--score") (fst c)) (flat_map (block rows) l) = [].
Proof.
  intro Hn. rewrite filter_flat_map. induction l as [|[i y] l IH]; intros H Hni; [reflexivity|]. cbn [map snd] in *. inversion H; subst.
  cbn [flat_map]. rewrite IH by (try assumption; intro K; apply Hni; now right). rewrite app_nil_r. unfold block. cbn [filter fst snd].
  rewrite !search_full_b by (assumption || (cbn; tauto)).
  assert (String.eqb n y = false) as -> by (apply String.eqb_neq; intros ->; apply Hni; now left). reflexivity.
Qed.
Lemma filter_label_pairs rows n (l : list (nat * string)) : Forall (name_form tail) (map snd l) -> NoDup (map snd l) ->
  forall j i, nth_error l j = Some (i, n) ->
  filter (fun c => re_search (n ++ "--score") (fst c)) (flat_map (block rows) l) = [((n ++ "--score")%string, colf rows (4 * i + 6))].
Proof.
  intros H Hd j i Hj.
  assert (name_form tail n) as Hn.
  { rewrite Forall_forall in H. apply H. change n with (snd (i, n)). apply in_map. eapply nth_error_In; eassumption. }
  revert j Hj. induction l as [|[i' y] l IH]; intros j Hj; [destruct j; discriminate|]. cbn [map snd] in *.
  inversion H; subst. inversion Hd as [|? ? Hnot Hd']; subst. cbn [flat_map]. rewrite filter_app. unfold block at 1. cbn [filter fst snd].
  rewrite !search_full_b by (assumption || (cbn; tauto)). destruct j as [|j]; cbn [nth_error] in Hj.
  - injection Hj as -> ->. rewrite String.eqb_refl. cbn [andb String.eqb]. rewrite filter_label_none by assumption. reflexivity.
  - assert (String.eqb n y = false) as ->.
    { apply String.eqb_neq. intros <-. apply Hnot. change n with (snd (i, n)). apply in_map. eapply nth_error_In; eassumption. }
    cbn [andb app]. eapply IH; eassumption.
Qed.
Lemma filter_label rows names n j : Forall (name_form tail) names -> NoDup names -> nth_error names j = Some n ->
  df_filter (n ++ "--score") (fcols rows (summary_columns names)) = [((n ++ "--score")%string, colf rows (4 * j + 6))].
Proof.
  intros H Hd Hj. rewrite fcols_eq. unfold df_filter. rewrite filter_app. cbn [filter fst].
  assert (name_form tail n) as Hn by (rewrite Forall_forall in H; apply H; eapply nth_error_In; eassumption).
  rewrite !(search_full_trim tail) by (assumption || (cbn; tauto)). cbn [app].
  eapply filter_label_pairs; [now rewrite combine_snd..|]. apply (combine_nth names 0 j n Hj).
Qed.
End Lookup.

(** ** Automatic unfolding *)
Section Auto.
Context {F : Type} {N : Num F}.
Notation iter := (trimiter F (list (@column F))).
Variable rnd store : F -> F.
Lemma auto_from_fits f (its : list iter) o u : autounfold_vals f its = Ok (o, u) ->
  exists id t c, nth_error its id = Some t /\ In c (ti_fits t) /\ o = ti_eigs t /\ u = c_unfolded c.
Proof.
  unfold autounfold_vals. intro H. destruct (select_column _) as [c|]; [|discriminate]. cbn [bind] in H.
  destruct (nth_error _ c) as [[label x]|]; [|discriminate]. destruct (df_filter label (f_cols f)) as [|[l2 col] [|]]; try discriminate.
  destruct (argmin _) as [[r v]|]; [|discriminate]. destruct (nth_error (f_index f) r) as [id|]; [|discriminate].
  destruct (nth_error its id) as [t|] eqn:Et; [|discriminate]. destruct (cols_named _ _) as [|cl rest] eqn:Ec; [discriminate|].
  injection H as <- <-. exists id, t, cl. split; [assumption|]. split; [|auto].
  assert (In cl (cl :: rest)) as Hi by now left. rewrite <- Ec in Hi. apply filter_In in Hi. tauto.
Qed.
Lemma auto_full hbos fit names vals max_trim max_iters u (L : OrdLaws F N) :
  (forall id l lab, hbos id l = Ok lab -> length lab = length l) ->
  trim_unfold_auto rnd store hbos fit names vals max_trim max_iters = Ok u ->
  exists s kept cols c, Permutation vals s /\ AscendingNaNLast s /\ Contiguous s kept /\ kept <> [] /\
    fit kept = Ok cols /\ In c cols /\ u_originals u = kept /\ u_values u = c_unfolded c /\ u_smoother u = CNone.
Proof.
  intros Hh H. unfold trim_unfold_auto in H. destruct (trim_iters _ _ _ _ _) as [its|] eqn:Ei; [|discriminate]. cbn [bind] in H.
  destruct (summary _ _ _ _) as [f|]; [|discriminate]. cbn [bind] in H.
  destruct (autounfold_vals f its) as [[o v]|] eqn:Ea; [|discriminate]. cbn [bind] in H. injection H as <-.
  apply auto_from_fits in Ea. destruct Ea as (id & t & c & Ht & Hc & -> & ->).
  destruct (row_ok hbos fit Hh _ _ _ _ Ei id t Ht) as (_ & _ & (_ & _ & Hne) & Hcont & _).
  pose proof (trim_iters_fits _ _ _ _ _ _ Ei) as Hf. rewrite Forall_forall in Hf. specialize (Hf t (nth_error_In _ _ Ht)).
  exists (np_sort vals), (ti_eigs t), (ti_fits t), c. split; [apply np_sort_perm|]. split; [apply np_sort_spec|].
  split; [assumption|]. split; [assumption|]. split; [assumption|]. split; [assumption|]. cbn. split; [|auto].
  destruct Hcont as (p & q & E). apply np_sort_id. pose proof (np_sort_sorted vals) as Hs. rewrite E in Hs.
  apply (SS_skipn _ _ (length p)) in Hs. rewrite skipn_app, skipn_all, Nat.sub_diag in Hs. cbn [app skipn] in Hs.
  apply (SS_firstn _ _ (length (ti_eigs t))) in Hs. rewrite firstn_app, firstn_all, Nat.sub_diag in Hs. cbn [firstn] in Hs.
  rewrite app_nil_r in Hs. exact Hs.
Qed.
End Auto.

Section AutoR.
Notation iter := (trimiter R (list (@column R))).
Lemma select_ok (scores : list (list R)) : scores <> [] -> Forall (fun c => c <> []) scores ->
  exists r c col, autounfold_select scores = Ok (r, c) /\ select_column (map masked_mean (map (map nabs) scores)) = Ok c /\
    nth_error scores c = Some col /\ (r < length col)%nat /\ option_map fst (argmin (map skipna (map nabs col))) = Some r.
Proof.
  intros Hne Hcols. unfold autounfold_select. set (means := map masked_mean (map (map nabs) scores)).
  assert (Hlen : length means = length scores) by (unfold means; now rewrite !map_length).
  assert (exists c, select_column means = Ok c /\ (c < length scores)%nat) as (c & Ec & Hc).
  { unfold select_column. destruct means as [|m ms] eqn:Em; [destruct scores; [congruence|discriminate]|]. rewrite <- Em in *.
    pose proof (argmin_spec means (notnan_opts _)) as K. destruct (argmin means) as [[j b]|].
    - exists j. split; [reflexivity|]. destruct K as (K & _). rewrite <- Hlen. apply nth_error_Some. congruence.
    - exists 0%nat. split; [reflexivity|]. destruct scores; [congruence|cbn; lia]. }
  rewrite Ec. cbn [bind]. destruct (nth_error scores c) as [col|] eqn:Ecol; [|apply nth_error_None in Ecol; lia].
  rewrite nth_error_map, Ecol. cbn [option_map].
  assert (col <> []) as Hcol by (rewrite Forall_forall in Hcols; apply Hcols; eapply nth_error_In; eassumption).
  pose proof (argmin_spec (map skipna (map nabs col)) (notnan_opts _)) as K.
  destruct (argmin (map skipna (map nabs col))) as [[r v]|] eqn:Er.
  - exists r, c, col. split; [reflexivity|]. split; [reflexivity|]. split; [assumption|]. split; [|first [rewrite Er; reflexivity | reflexivity]].
    destruct K as (K & _). assert (r < length (map skipna (map nabs col)))%nat as K' by (apply nth_error_Some; congruence).
    now rewrite !map_length in K'.
  - exfalso. destruct col as [|x col]; [congruence|]. inversion K as [|? ? K1 _]; subst. unfold skipna in K1. rewrite isnan_R in K1. discriminate.
Qed.

Lemma auto_select_R tail (names : list string) (its : list iter) rows : good_tail tail -> Forall (name_form tail) names -> NoDup names ->
  names <> [] -> its <> [] -> (forall k t, nth_error its k = Some t -> ti_id t = k) -> length rows = length its ->
  exists r c t n, autounfold_select (map (fun j => colf rows (4 * j + 6)) (seq 0 (length names))) = Ok (r, c) /\
    nth_error its r = Some t /\ nth_error names c = Some n /\
    autounfold_vals (mkframe (map ti_id its) (fcols rows (summary_columns names))) its =
      match cols_named n (ti_fits t) with [] => Raise KeyError | u :: _ => Ok (ti_eigs t, c_unfolded u) end.
Proof.
  intros Ht Hf Hd Hne Hits Hid Hrows. set (S := map (fun j => colf rows (4 * j + 6)) (seq 0 (length names))).
  destruct (select_ok S) as (r & c & col & E1 & E2 & E3 & E4 & E5).
  { unfold S. destruct names; [congruence|discriminate]. }
  { unfold S. apply Forall_forall. intros x Hx. apply in_map_iff in Hx. destruct Hx as (j & <- & _). unfold colf.
    destruct rows; [destruct its; [congruence|discriminate]|discriminate]. }
  assert (c < length names)%nat as Hc.
  { assert (c < length S)%nat as K by (apply nth_error_Some; congruence). unfold S in K. now rewrite map_length, seq_length in K. }
  destruct (nth_error names c) as [n|] eqn:En; [|apply nth_error_None in En; lia].
  assert (col = colf rows (4 * c + 6)) as Ecol.
  { unfold S in E3. rewrite nth_error_map in E3. destruct (nth_error (seq 0 (length names)) c) as [x|] eqn:Ex; [|discriminate].
    cbn in E3. injection E3 as <-. apply nth_error_nth with (d := 0%nat) in Ex. rewrite seq_nth in Ex by assumption. subst x. reflexivity. }
  assert (r < length its)%nat as Hr by (rewrite Ecol in E4; unfold colf in E4; now rewrite map_length, Hrows in E4).
  destruct (nth_error its r) as [t|] eqn:Et; [|apply nth_error_None in Et; lia].
  exists r, c, t, n. split; [assumption|]. split; [assumption|]. split; [assumption|].
  unfold autounfold_vals. cbn [f_cols f_index]. rewrite (filter_score tail) by assumption. rewrite map_map. cbn [snd].
  assert (map (fun x : nat * string => masked_mean (map nabs (colf rows (4 * fst x + 6)))) (combine (seq 0 (length names)) names)
    = map masked_mean (map (map nabs) S)) as ->.
  { unfold S. rewrite !map_map. rewrite <- (map_map fst (fun j => masked_mean (map nabs (colf rows (4 * j + 6))))). f_equal.
    clear. generalize 0%nat. induction names; intros; cbn; [reflexivity|]. now rewrite IHnames. }
  rewrite E2. cbn [bind]. rewrite nth_error_map, (combine_nth _ _ _ _ En). cbn [option_map fst snd].
  rewrite (filter_label tail Ht rows names n c) by assumption. rewrite <- Ecol.
  destruct (argmin (map skipna (map nabs col))) as [[r' v]|] eqn:Er; [|discriminate]. cbn in E5. injection E5 as ->.
  rewrite nth_error_map, Et. cbn [option_map]. rewrite (Hid _ _ Et), Et. rewrite str_remove_suffix; [reflexivity|].
  eapply name_nosc; [exact Ht|]. rewrite Forall_forall in Hf. apply Hf. eapply nth_error_In; eassumption.
Qed.
End AutoR.

(** ** The property statements *)
Lemma HasCell_fcols {F} {N : Num F} (rows : list (list F)) h p lab k row v : nth_error h p = Some lab ->
  nth_error rows k = Some row -> nth_error row p = Some v -> HasCell (fcols rows h) lab k v.
Proof. intros H1 H2 H3. exists p, (colf rows p). split; [now apply (frame_nth rows h 0 p lab)|]. eapply colf_nth; eassumption. Qed.

Lemma cells_R store (c : @column R) : cells store c = [store (Rmean (Gaps (c_unfolded c))); store (Rvar1 (Gaps (c_unfolded c))); store (c_msqe c);
  store (ScoreOf (c_unfolded c))].
Proof.
  unfold cells, evaluate_unfolding. rewrite ndiff_Gaps, nmean_R, nvar1_R. unfold ScoreOf. repeat f_equal. unfold goe_variance, goe_mean.
  cbn [nadd nsub nmul ndiv n1 nofZ Num_R]. replace 0.286%R with (286 / 1000)%R by lra. field.
Qed.

Lemma summary_table rnd store hbos (fit : list R -> result (list column)) names values (max_trim : R) max_iters its :
  (forall id l lab, hbos id l = Ok lab -> length lab = length l) ->
  (forall l cols, fit l = Ok cols -> map c_name cols = names) -> NoDup names ->
  trim_iters hbos fit values max_trim max_iters = Ok its ->
  exists f, summary rnd store names its = Ok f /\
    f_index f = seq 0 (length its) /\ length (f_cols f) = (4 * length names + 3)%nat /\ NoDup (map fst (f_cols f)) /\
    (forall lab col, In (lab, col) (f_cols f) -> length col = length its) /\
    forall k t, nth_error its k = Some t ->
      let n := INR (length values) in
      let cell lab v := HasCell (f_cols f) lab k (store v) in
      cell "trim_percent"%string (rnd (100 - 100 * INR (length (ti_eigs t)) / n)%R) /\
      (exists a i, head_opt (ti_eigs t) = Some a /\ LeastIndex (fun x => neq x a) (ti_origs t) i /\
         cell "trim_low"%string (rnd (100 * INR i / n)%R)) /\
      (exists b i, last_opt (ti_eigs t) = Some b /\ GreatestIndex (fun x => neq x b) (ti_origs t) i /\ (i < length values)%nat /\
         cell "trim_high"%string (rnd (100 * INR (length values - 1 - i) / n)%R)) /\
      forall j c, nth_error (ti_fits t) j = Some c ->
        let mean := Rmean (Gaps (c_unfolded c)) in let var := Rvar1 (Gaps (c_unfolded c)) in
        cell (c_name c ++ "--mean_spacing")%string mean /\ cell (c_name c ++ "--var_spacing")%string var /\
        cell (c_name c ++ "--msqe")%string (c_msqe c) /\
        cell (c_name c ++ "--score")%string (ScoreOf (c_unfolded c)).
Proof.
  intros Hh Hf Hd H. pose proof (row_ok hbos fit Hh _ _ _ _ H) as Hrow. pose proof (trim_iters_fits _ _ _ _ _ _ H) as Hfits.
  rewrite Forall_forall in Hfits.
  assert (Hnames : forall t, In t its -> map c_name (ti_fits t) = names) by (intros t Ht; apply (Hf (ti_eigs t)), Hfits, Ht).
  destruct (summary_ok rnd store names its) as (rows & Hrows & ->).
  { intros t Ht. pose proof (Hnames t Ht) as E. apply In_nth_error in Ht. destruct Ht as (k & Hk).
    destruct (Hrow k t Hk) as (_ & _ & (_ & _ & Hne) & _). split; [assumption|]. split; [rewrite <- E; now rewrite map_length|now rewrite E]. }
  eexists. split; [reflexivity|]. cbn [f_index f_cols]. fold (fcols rows (summary_columns names)).
  assert (Hid : map ti_id its = seq 0 (length its)).
  { apply nth_error_ext. intro k. rewrite nth_error_map. destruct (nth_error its k) as [t|] eqn:E.
    - destruct (Hrow k t E) as (Hidk & _). cbn [option_map]. rewrite Hidk. assert (k < length its)%nat by (apply nth_error_Some; congruence).
      symmetry. rewrite (nth_error_nth' _ 0%nat) by (now rewrite seq_length). now rewrite seq_nth.
    - apply nth_error_None in E. symmetry. apply nth_error_None. now rewrite seq_length. }
  split; [exact Hid|].
  assert (Hl : map fst (fcols rows (summary_columns names)) = summary_columns names) by apply frame_labels.
  split; [rewrite <- (map_length fst), Hl; apply summary_columns_length|].
  split; [rewrite Hl; now apply labels_nodup|]. split.
  { intros lab col Hi. unfold fcols in Hi. apply in_map_iff in Hi. destruct Hi as (p & [= <- <-] & _). unfold colf. rewrite map_length.
    symmetry. eapply Forall2_len. eassumption. }
  intros k t Hk. cbn zeta. destruct (Forall2_nth _ _ _ Hrows k t Hk) as (row & Hr & lo & hi & Elo & Ehi & Lr & R0 & R1 & R2 & Rc).
  destruct (Hrow k t Hk) as (_ & Ho & (_ & _ & Hne) & Hcont & _).
  assert (Hlo : length (ti_origs t) = length values) by (rewrite Ho; apply np_sort_length).
  assert (Hn : forall l : list R, nlen l = INR (length l)) by (intro l; unfold nlen; cbn [nofZ Num_R]; now rewrite <- INR_IZR_INZ).
  split; [|split; [|split]].
  - eapply (HasCell_fcols rows _ 0); [reflexivity|eassumption|]. rewrite R0. unfold percent_removed. rewrite !Hn, Hlo. reflexivity.
  - unfold lower_percent_removed in Elo. rewrite py_get_0 in Elo. destruct (head_opt (ti_eigs t)) as [a|] eqn:Ea; [|discriminate].
    assert (exists i, LeastIndex (fun x => neq x a) (ti_origs t) i /\ find_first neq (ti_origs t) a = Z.of_nat i \/ Absent (fun x => neq x a) (ti_origs t)) as (i & [(Hi & E)|Habs])
      by (destruct (find_first_spec neq (ti_origs t) a) as [(Habs & _)|(i & Hi & E)]; [exists 0%nat; now right|exists i; now left]).
    + exists a, i. split; [reflexivity|]. split; [assumption|]. eapply (HasCell_fcols rows _ 1); [reflexivity|eassumption|].
      rewrite R1. f_equal. f_equal.
      transitivity (rnd (ndiv (nmul (nofZ 100) (nofZ (find_first neq (ti_origs t) a))) (nlen (ti_origs t)))); [congruence|].
      rewrite E, Hn, Hlo. cbn [ndiv nmul nofZ Num_R]. now rewrite <- INR_IZR_INZ.
    + exfalso. specialize (Habs a). rewrite Ho in Habs. destruct Hcont as (p & q & Ec). rewrite Ec in Habs.
      assert (neq a a = true) by (cbn; destruct (Req_EM_T a a); congruence).
      rewrite Habs in H0; [discriminate|]. apply in_app_iff. right. apply in_app_iff. left. destruct (ti_eigs t); [discriminate|].
      cbn in Ea. injection Ea as ->. now left.
  - unfold upper_percent_removed in Ehi. rewrite py_get_m1 in Ehi. destruct (last_opt (ti_eigs t)) as [b|] eqn:Eb; [|discriminate].
    assert (exists i, GreatestIndex (fun x => neq x b) (ti_origs t) i /\ find_last neq (ti_origs t) b = Z.of_nat i \/ Absent (fun x => neq x b) (ti_origs t)) as (i & [(Hi & E)|Habs])
      by (destruct (find_last_spec neq (ti_origs t) b) as [(Habs & _)|(i & Hi & E)]; [exists 0%nat; now right|exists i; now left]).
    + assert (i < length values)%nat as Hlt.
      { destruct Hi as ((x & Hx & _) & _). rewrite <- Hlo. apply nth_error_Some. congruence. }
      exists b, i. split; [reflexivity|]. split; [assumption|]. split; [assumption|].
      eapply (HasCell_fcols rows _ 2); [reflexivity|eassumption|].
      rewrite R2. f_equal. f_equal.
      transitivity (rnd (ndiv (nmul (nofZ 100) (nofZ (Z.of_nat (length (ti_origs t)) - 1 - find_last neq (ti_origs t) b))) (nlen (ti_origs t)))); [congruence|].
      rewrite E, Hn, Hlo. cbn [ndiv nmul nofZ Num_R]. rewrite (INR_IZR_INZ (length values - 1 - i)).
      replace (Z.of_nat (length values) - 1 - Z.of_nat i)%Z with (Z.of_nat (length values - 1 - i)) by lia. reflexivity.
    + exfalso. specialize (Habs b). rewrite Ho in Habs. destruct Hcont as (p & q & Ec). rewrite Ec in Habs.
      assert (neq b b = true) by (cbn; destruct (Req_EM_T b b); congruence).
      rewrite Habs in H0; [discriminate|]. apply in_app_iff. right. apply in_app_iff. left. unfold last_opt in Eb. eapply nth_error_In; eassumption.
  - intros j c Hj.
    assert (Hnm : nth_error names j = Some (c_name c)).
    { rewrite <- (Hnames t (nth_error_In _ _ Hk)), nth_error_map, Hj. reflexivity. }
    assert (Hcells : cells store c = [store (Rmean (Gaps (c_unfolded c))); store (Rvar1 (Gaps (c_unfolded c))); store (c_msqe c);
      store (ScoreOf (c_unfolded c))]) by apply cells_R.
    assert (forall m v suf, nth_error suffixes m = Some suf -> nth_error (cells store c) m = Some v ->
      HasCell (fcols rows (summary_columns names)) (c_name c ++ suf) k v) as K.
    { intros m v suf Hs Hv. eapply HasCell_fcols; [eapply summary_nth; [exact Hnm|exact Hs]|exact Hr|].
      rewrite (Rc j c m Hj); [assumption|]. assert (m < length suffixes)%nat by (apply nth_error_Some; congruence). assumption. }
    rewrite Hcells in K. split; [|split; [|split]].
    + now apply (K 0%nat).
    + now apply (K 1%nat).
    + now apply (K 2%nat).
    + now apply (K 3%nat).
Qed.

Lemma summary_repeated {F} {N : Num F} {L : OrdLaws F N} rnd store hbos
    (fit : list F -> result (list column)) names values max_trim max_iters its i j nm :
  (forall id l lab, hbos id l = Ok lab -> length lab = length l) ->
  (forall l cols, fit l = Ok cols -> map c_name cols = names) ->
  i <> j -> nth_error names i = Some nm -> nth_error names j = Some nm ->
  trim_iters hbos fit values max_trim max_iters = Ok its ->
  summary rnd store names its = Raise ValueError.
Proof.
  intros Hh Hf Hij Hi Hj H. pose proof (row_ok hbos fit Hh _ _ _ _ H) as Hrow. pose proof (trim_iters_fits _ _ _ _ _ _ H) as Hfits.
  rewrite Forall_forall in Hfits. apply trim_iters_ok in H. destruct H as (t0 & rest & -> & _).
  assert (map c_name (ti_fits t0) = names) as E by (apply (Hf (ti_eigs t0)), Hfits; now left).
  destruct (Hrow 0%nat t0 eq_refl) as (_ & _ & (_ & _ & Hne) & _).
  rewrite <- E in Hi, Hj. rewrite nth_error_map in Hi, Hj.
  destruct (nth_error (ti_fits t0) i) as [a|] eqn:Ea; [|discriminate]. destruct (nth_error (ti_fits t0) j) as [b|] eqn:Eb; [|discriminate].
  cbn in Hi, Hj. unfold summary. cbn [for_each]. rewrite <- E, map_length.
  rewrite (summary_row_dup rnd store t0 i j a b Hne Hij Ea Eb) by congruence. reflexivity.
Qed.

(** ** The columns of [fit_all] *)
Section FitAll.
Context {F : Type} {N : Num F} {L : OrdLaws F N}.
Variable emd : list F -> result (list (list F)).
Variable nexp : F -> F.
Variable len_pow : nat -> F -> F.
Variable polyfit : list F -> list F -> Z -> result (list F).
Variable uspline : list F -> list F -> Z -> F -> result (F -> F).
Variable fit_exp : list F -> list F -> F * F -> result (F * F).
Variable fit_gompertz : list F -> list F -> F * F * F -> result (F * F * F).
Variable fmt3 fmt2 : F -> string.
Variable defaults : list F.
Notation fit := (fit emd nexp polyfit uspline fit_exp fit_gompertz).
Notation fit_all := (fit_all emd nexp len_pow polyfit uspline fit_exp fit_gompertz fmt3 fmt2 defaults).
Definition col_good (eigs : list F) (c : column) : Prop := length (c_unfolded c) = length eigs /\ AscendingNaNLast (c_unfolded c).
Lemma fit_column_good eigs nm sm d ss det c : (let! r := fit eigs sm d ss det true in make_column nm r) = Ok c -> col_good eigs c.
Proof.
  intro H. destruct (fit eigs sm d ss det true) as [[[u st] cl]|] eqn:E; [|discriminate]. cbn [bind] in H. apply fit_length in E.
  unfold make_column in H. destruct (np_sub u st); [|discriminate]. cbn [bind] in H.
  assert (c_unfolded c = np_sort u) as Ec by (injection H as <-; reflexivity). unfold col_good. rewrite Ec, np_sort_length.
  split; [assumption|apply np_sort_spec].
Qed.
Lemma for_each_good {A} (P : column -> Prop) (f : A -> result (@column F)) l cs : (forall a c, f a = Ok c -> P c) ->
  for_each f l = Ok cs -> Forall P cs.
Proof.
  intros H E. apply for_each_Forall2 in E. induction E; constructor; eauto.
Qed.
Lemma fit_all_good eigs polys ss degs gomp det cols : fit_all eigs polys ss degs gomp det = Ok cols -> Forall (col_good eigs) cols.
Proof.
  unfold M_Smooth.fit_all. intro H. destruct (for_each _ polys) as [ps|] eqn:E1; [|discriminate]. cbn [bind] in H.
  match type of H with bind ?e _ = _ => destruct e as [sp|] eqn:E2; [|discriminate] end. cbn [bind] in H.
  destruct (if gomp then _ else _) as [g|] eqn:E3; [|discriminate]. cbn [bind] in H. injection H as <-.
  apply Forall_app. split; [|apply Forall_app; split].
  - eapply for_each_good; [|exact E1]. intros a c Hc. eapply fit_column_good. exact Hc.
  - destruct ss; (eapply for_each_good; [|exact E2]; intros [a b] c Hc; eapply fit_column_good; exact Hc).
  - destruct gomp; [|injection E3 as <-; constructor].
    match type of E3 with bind ?e _ = _ => destruct e as [r|] eqn:E4; [|discriminate] end. cbn [bind] in E3.
    destruct (make_column _ r) as [c|] eqn:E5; [|discriminate]. cbn [bind] in E3. injection E3 as <-. constructor; [|constructor].
    eapply fit_column_good. rewrite E4. exact E5.
Qed.
(** The names of the columns. *)
Lemma fit_all_names_heuristic eigs polys degs gomp det cols : fit_all eigs polys SHeuristic degs gomp det = Ok cols ->
  map c_name cols = get_smoother_names fmt2 defaults polys SHeuristic degs gomp.
Proof.
  unfold M_Smooth.fit_all. intro H. destruct (for_each _ polys) as [ps|] eqn:E1; [|discriminate]. cbn [bind] in H.
  destruct (for_each _ (list_prod defaults degs)) as [sp|] eqn:E2; [|discriminate]. cbn [bind] in H.
  destruct (if gomp then _ else _) as [g|] eqn:E3; [|discriminate]. cbn [bind] in H. injection H as <-.
  rewrite !map_app. unfold get_smoother_names. f_equal; [|f_equal].
  - eapply for_each_names. exact E1.
  - rewrite flat_map_prod. apply (for_each_names (fun p : F * Z => spline_name (snd p) ++ "-spline_" ++ fmt2 (fst p) ++ "_heuristic")%string
      (fun p => fit eigs (SMember "Spline") (DInt (snd p)) (AFloat (len_pow (length eigs) (fst p))) det true)).
    rewrite <- E2. clear. induction (list_prod defaults degs) as [|[s d] t IH]; [reflexivity|]. cbn [for_each fst snd]. now rewrite IH.
  - destruct gomp; [|now injection E3 as <-].
    match type of E3 with bind ?e _ = _ => destruct e as [r|] eqn:E4; [|discriminate] end. cbn [bind] in E3.
    destruct (make_column _ r) as [c|] eqn:E5; [|discriminate]. cbn [bind] in E3. injection E3 as <-. cbn [map].
    now rewrite (make_column_name _ _ _ E5).
Qed.
End FitAll.

(** ** Selection by score *)
Definition score_col (store : R -> R) (its : list (trimiter R (list (@column R)))) (j : nat) : list R :=
  map (fun t => store (ScoreOf (nth j (map c_unfolded (ti_fits t)) []))) its.
Lemma auto_selects rnd store hbos (fit : list R -> result (list column)) tail names values (max_trim : R) max_iters its :
  (forall id l lab, hbos id l = Ok lab -> length lab = length l) -> good_tail tail -> Forall (name_form tail) names ->
  NoDup names -> names <> [] -> (forall l cols, fit l = Ok cols -> map c_name cols = names) ->
  trim_iters hbos fit values max_trim max_iters = Ok its ->
  exists row col t c, nth_error its row = Some t /\ nth_error (ti_fits t) col = Some c /\
    trim_unfold_auto rnd store hbos fit names values max_trim max_iters = Ok (mkunf (ti_eigs t) (c_unfolded c) CNone) /\
    (exists s, nth_error (score_col store its col) row = Some s /\
       forall k x, nth_error (score_col store its col) k = Some x -> (Rabs s <= Rabs x)%R /\ ((k < row)%nat -> (Rabs s < Rabs x)%R)) /\
    ((exists j m, (j < length names)%nat /\ MeanBelowP90 (map Rabs (score_col store its j)) m) ->
     exists m, MeanBelowP90 (map Rabs (score_col store its col)) m /\
       forall j m', (j < length names)%nat -> MeanBelowP90 (map Rabs (score_col store its j)) m' -> (m <= m')%R).
Proof.
  intros Hh Ht Hnf Hd Hne Hf H. pose proof (row_ok hbos fit Hh _ _ _ _ H) as Hrow. pose proof (trim_iters_fits _ _ _ _ _ _ H) as Hfits.
  rewrite Forall_forall in Hfits.
  assert (Hnames : forall t, In t its -> map c_name (ti_fits t) = names) by (intros t Hi; apply (Hf (ti_eigs t)), Hfits, Hi).
  destruct (summary_ok rnd store names its) as (rows & Hrows & Hsum).
  { intros t Hi. pose proof (Hnames t Hi) as E. apply In_nth_error in Hi. destruct Hi as (k & Hk).
    destruct (Hrow k t Hk) as (_ & _ & (_ & _ & Hne') & _). split; [assumption|]. split; [rewrite <- E; now rewrite map_length|now rewrite E]. }
  assert (Hits : its <> []) by (apply trim_iters_ok in H; destruct H as (? & ? & -> & _); discriminate).
  assert (Hcol : forall j, (j < length names)%nat -> colf rows (4 * j + 6) = score_col store its j).
  { intros j Hj. unfold score_col, colf. clear Hsum H Hits Hrow Hfits. induction Hrows as [|t row its rows (lo & hi & _ & _ & Lr & _ & _ & _ & Rc) Hrows IH]; [reflexivity|].
    cbn [map]. f_equal; [|apply IH; intros; apply Hnames; now right].
    assert (map c_name (ti_fits t) = names) as E by (apply Hnames; now left).
    destruct (nth_error (ti_fits t) j) as [c|] eqn:Ec.
    2:{ apply nth_error_None in Ec. rewrite <- E, map_length in Hj. lia. }
    specialize (Rc j c 3%nat Ec ltac:(lia)). rewrite cells_R in Rc. cbn [nth_error] in Rc.
    replace (4 * j + 3 + 3)%nat with (4 * j + 6)%nat in Rc by lia. apply nth_error_nth with (d := n0) in Rc. rewrite Rc. do 2 f_equal.
    symmetry. apply nth_error_nth. rewrite nth_error_map, Ec. reflexivity. }
  destruct (auto_select_R tail names its rows) as (r & c & t & n & E1 & E2 & E3 & E4); auto.
  { intros k t Hk. now destruct (Hrow k t Hk). }
  { symmetry. eapply Forall2_len. eassumption. }
  assert (Hc : (c < length names)%nat) by (apply nth_error_Some; congruence).
  pose proof (Hnames t (nth_error_In _ _ E2)) as Hnt.
  destruct (nth_error (ti_fits t) c) as [cl|] eqn:Ec.
  2:{ apply nth_error_None in Ec. rewrite <- Hnt, map_length in Hc. lia. }
  assert (n = c_name cl) as ->.
  { rewrite <- Hnt, nth_error_map, Ec in E3. cbn in E3. congruence. }
  rewrite cols_named_unique in E4 by (try (rewrite Hnt; assumption); eapply nth_error_In; eassumption).
  exists r, c, t, cl. split; [assumption|]. split; [assumption|]. split.
  { unfold trim_unfold_auto. rewrite H. cbn [bind]. rewrite Hsum. cbn [bind]. fold (fcols rows (summary_columns names)). rewrite E4. cbn [bind].
    unfold unfolded_init. do 2 f_equal. destruct (Hrow r t E2) as (_ & _ & _ & (p & q & E) & _).
    apply np_sort_id. pose proof (np_sort_sorted values) as Hs. rewrite E in Hs.
    apply (SS_skipn _ _ (length p)) in Hs. rewrite skipn_app, skipn_all, Nat.sub_diag in Hs. cbn [app skipn] in Hs.
    apply (SS_firstn _ _ (length (ti_eigs t))) in Hs. rewrite firstn_app, firstn_all, Nat.sub_diag in Hs. cbn [firstn] in Hs.
    rewrite app_nil_r in Hs. exact Hs. }
  assert (map (fun j => colf rows (4 * j + 6)) (seq 0 (length names)) = map (score_col store its) (seq 0 (length names))) as ES.
  { apply map_ext_in. intros j Hj. apply in_seq in Hj. apply Hcol. lia. }
  rewrite ES in E1. assert (Hnth : forall j, (j < length names)%nat -> nth_error (map (score_col store its) (seq 0 (length names))) j = Some (score_col store its j)).
  { intros j Hj. rewrite nth_error_map, (nth_error_nth' _ 0%nat) by (now rewrite seq_length). rewrite seq_nth by assumption. reflexivity. }
  apply (selection _ (length its)) in E1.
  - destruct E1 as (cc & Ecc & H1 & H2). rewrite Hnth in Ecc by assumption. injection Ecc as <-. split; [exact H1|].
    intros (j & m & Hj & Hm). destruct H2 as (m0 & Hm0 & Hmin); [exists j, (score_col store its j), m; auto|].
    exists m0. split; [assumption|]. intros j' m' Hj' Hm'. apply (Hmin j' (score_col store its j') m'); auto.
  - destruct its; [congruence|cbn; lia].
  - apply Forall_forall. intros x Hx. apply in_map_iff in Hx. destruct Hx as (j & <- & _). unfold score_col. apply map_length.
Qed.

(** When no column of the fits carries a name of the table. *)
Lemma auto_keyerror rnd store hbos (fit : list R -> result (list column)) tail names values (max_trim : R) max_iters its :
  (forall id l lab, hbos id l = Ok lab -> length lab = length l) -> good_tail tail -> Forall (name_form tail) names ->
  NoDup names -> names <> [] ->
  (forall l cols, fit l = Ok cols -> length cols = length names /\ NoDup (map c_name cols) /\ forall n, In n names -> ~ In n (map c_name cols)) ->
  trim_iters hbos fit values max_trim max_iters = Ok its ->
  trim_unfold_auto rnd store hbos fit names values max_trim max_iters = Raise KeyError.
Proof.
  intros Hh Ht Hnf Hd Hne Hf H. pose proof (row_ok hbos fit Hh _ _ _ _ H) as Hrow. pose proof (trim_iters_fits _ _ _ _ _ _ H) as Hfits.
  rewrite Forall_forall in Hfits.
  destruct (summary_ok rnd store names its) as (rows & Hrows & Hsum).
  { intros t Hi. destruct (Hf (ti_eigs t) (ti_fits t)) as (F1 & F2 & _); [apply Hfits, Hi|]. apply In_nth_error in Hi. destruct Hi as (k & Hk).
    destruct (Hrow k t Hk) as (_ & _ & (_ & _ & Hne') & _). auto. }
  assert (Hits : its <> []) by (apply trim_iters_ok in H; destruct H as (? & ? & -> & _); discriminate).
  destruct (auto_select_R tail names its rows) as (r & c & t & n & E1 & E2 & E3 & E4); auto.
  { intros k t Hk. now destruct (Hrow k t Hk). }
  { symmetry. eapply Forall2_len. eassumption. }
  destruct (Hf (ti_eigs t) (ti_fits t)) as (_ & _ & F3); [apply Hfits; eapply nth_error_In; eassumption|].
  rewrite cols_named_none in E4 by (apply F3; eapply nth_error_In; eassumption).
  unfold trim_unfold_auto. rewrite H. cbn [bind]. rewrite Hsum. cbn [bind]. fold (fcols rows (summary_columns names)). rewrite E4. reflexivity.
Qed.

(** ** Two decimals against three *)
Lemma decimals_differ a b : Decimals 3 a -> Decimals 2 b -> a <> b.
Proof.
  intros Ha Hb E. apply decimals_parts in Ha, Hb. destruct Ha as (x & y & Ea & La & _ & Hy). destruct Hb as (x' & y' & Eb & Lb & _ & Hy').
  subst b. rewrite Ea in Eb. apply split_last in Eb; [|apply not_digit; [unfold is_digit; nin|assumption]..]. destruct Eb as [_ ->]. lia.
Qed.
Lemma heuristic_names_disjoint {F} (fmt3 fmt2 : F -> string) dflt degs n :
  (forall s, In s dflt -> Decimals 3 (fmt3 s) /\ Decimals 2 (fmt2 s)) ->
  In n (get_smoother_names fmt3 dflt [] SHeuristic degs false) -> ~ In n (get_smoother_names fmt2 dflt [] SHeuristic degs false).
Proof.
  intros Hf H1 H2. unfold get_smoother_names in *. cbn [map app] in H1, H2. rewrite app_nil_r in *.
  apply in_flat_map in H1, H2. destruct H1 as (s & Hs & H1), H2 as (s' & Hs' & H2). apply in_map_iff in H1, H2.
  destruct H1 as (d & <- & _), H2 as (d' & E & _). apply (f_equal chars) in E. rewrite !chars_app in E.
  rewrite !app_assoc in E. apply app_inv_tail in E. rewrite <- !app_assoc, <- !chars_app in E. apply chars_inj in E.
  destruct (Hf s Hs) as [A3 _], (Hf s' Hs') as [_ B2]. apply spline_full_inj in E.
  - destruct E as [_ E]. symmetry in E. revert E. now apply decimals_differ.
  - eapply decimals_not; [exact B2|unfold is_digit; nin|discriminate|discriminate].
  - eapply decimals_not; [exact A3|unfold is_digit; nin|discriminate|discriminate].
Qed.
Lemma heuristic_names_length {F} (fmt3 fmt2 : F -> string) dflt polys degs gomp :
  length (get_smoother_names fmt3 dflt polys SHeuristic degs gomp) = length (get_smoother_names fmt2 dflt polys SHeuristic degs gomp).
Proof. unfold get_smoother_names. rewrite !app_length, !flat_map_prod, !map_length. reflexivity. Qed.

Lemma notnan_all_R (l : list R) : Forall NotNaN l.
Proof. apply Forall_forall. intros x _. apply isnan_R. Qed.
Lemma asc_R (l : list R) : AscendingNaNLast l -> Ascending l.
Proof.
  intros (a & b & -> & H & _ & Hb). destruct b as [|x b]; [now rewrite app_nil_r|]. inversion Hb as [|? ? K _]; subst.
  rewrite isnan_R in K. discriminate.
Qed.
Lemma auto_provenance len_pow emd nexp polyfit uspline fit_exp fit_gompertz fmt3 fmt2 defaults rnd store hbos
    polys ss degs gomp det names values (max_trim : R) max_iters u :
  (forall id l lab, hbos id l = Ok lab -> length lab = length l) -> (0 <= max_trim)%R ->
  let fit := fun l => fit_all emd nexp len_pow polyfit uspline fit_exp fit_gompertz fmt3 fmt2 defaults l polys ss degs gomp det in
  trim_unfold_auto rnd store hbos fit names values max_trim max_iters = Ok u ->
  exists s cols c, Permutation values s /\ Ascending s /\ Contiguous s (u_originals u) /\ u_originals u <> [] /\
    (INR (length values - length (u_originals u)) <= max_trim * INR (length values))%R /\
    fit (u_originals u) = Ok cols /\ In c cols /\ u_values u = c_unfolded c /\
    length (u_values u) = length (u_originals u) /\ Ascending (u_values u) /\ u_smoother u = CNone.
Proof.
  intros Hh Hm fit H. unfold trim_unfold_auto in H. destruct (trim_iters _ _ _ _ _) as [its|] eqn:Ei; [|discriminate]. cbn [bind] in H.
  destruct (summary _ _ _ _) as [f|]; [|discriminate]. cbn [bind] in H.
  destruct (autounfold_vals f its) as [[o v]|] eqn:Ea; [|discriminate]. cbn [bind] in H. injection H as <-.
  apply auto_from_fits in Ea. destruct Ea as (id & t & c & Ht & Hc & -> & ->).
  destruct (row_ok hbos fit Hh _ _ _ _ Ei id t Ht) as (_ & _ & (_ & _ & Hne) & Hcont & _).
  pose proof (trim_iters_fits _ _ _ _ _ _ Ei) as Hf. rewrite Forall_forall in Hf. specialize (Hf t (nth_error_In _ _ Ht)).
  assert (np_sort (ti_eigs t) = ti_eigs t) as Eo.
  { destruct Hcont as (p & q & E). apply np_sort_id. pose proof (np_sort_sorted values) as Hs. rewrite E in Hs.
    apply (SS_skipn _ _ (length p)) in Hs. rewrite skipn_app, skipn_all, Nat.sub_diag in Hs. cbn [app skipn] in Hs.
    apply (SS_firstn _ _ (length (ti_eigs t))) in Hs. rewrite firstn_app, firstn_all, Nat.sub_diag in Hs. cbn [firstn] in Hs.
    rewrite app_nil_r in Hs. exact Hs. }
  cbn [u_originals u_values u_smoother unfolded_init]. rewrite Eo.
  pose proof (fit_all_good _ _ _ _ _ _ _ _ _ _ _ _ _ _ _ _ _ Hf) as Hg. rewrite Forall_forall in Hg. destruct (Hg c Hc) as [G1 G2].
  exists (np_sort values), (ti_fits t), c. split; [apply np_sort_perm|]. split; [apply np_sort_ascending, notnan_all_R|].
  split; [assumption|]. split; [assumption|]. split; [eapply max_trim_respected; eassumption|].
  split; [exact Hf|]. split; [assumption|]. split; [reflexivity|]. split; [assumption|]. split; [|reflexivity].
  now apply asc_R.
  Unshelve. all: exact (fun x => x).
Qed.

Lemma regex_columns (F : Type) (fmt3 : F -> string) defaults polys ss degs gomp :
  (forall x, Decimals 3 (fmt3 x)) ->
  let names := get_smoother_names fmt3 defaults polys ss degs gomp in
  (forall lab, In lab (summary_columns names) ->
     (re_search "score" lab = true <-> exists n, In n names /\ lab = (n ++ "--score")%string)) /\
  (forall n lab, In n names -> In lab (summary_columns names) ->
     (re_search (n ++ "--score") lab = true <-> lab = (n ++ "--score")%string)) /\
  (forall n, In n names -> str_remove "--score" (n ++ "--score") = n).
Proof.
  intros Hf names. pose proof (names_form fmt3 defaults Hf polys ss degs gomp) as Hn. fold names in Hn. rewrite Forall_forall in Hn.
  pose proof (smooth_tail_good ss) as Ht. set (tl := smooth_tail ss) in *.
  assert (forall lab, In lab (summary_columns names) -> In lab trims \/ exists n s, In n names /\ In s suffixes /\ lab = (n ++ s)%string) as Hlab.
  { intros lab H. rewrite summary_columns_eq in H. apply in_app_iff in H. destruct H as [H|H]; [now left|right].
    apply in_flat_map in H. destruct H as (n & Hi & H). apply in_map_iff in H. destruct H as (s & <- & Hs). eauto. }
  assert (In "--score"%string suffixes) as Hsc by (cbn; tauto). split; [|split].
  - intros lab H. destruct (Hlab lab H) as [Hl|(n & s & Hi & Hs & ->)].
    + split.
      * destruct Hl as [<-|[<-|[<-|[]]]]; discriminate.
      * intros (n & _ & E). exfalso. revert E. now apply trim_suffix.
    + rewrite (search_score tl) by auto. split.
      * intros ->. eauto.
      * intros (n' & Hi' & E). now apply suffix_inj in E.
  - intros n lab Hi H. destruct (Hlab lab H) as [Hl|(n' & s & Hi' & Hs & ->)].
    + rewrite (search_full_trim tl) by auto. split; [discriminate|]. intro E. exfalso. revert E. now apply trim_suffix.
    + rewrite (search_full tl) by auto. split.
      * intros [-> ->]. reflexivity.
      * intro E. apply suffix_inj in E; auto. destruct E as [-> ->]. auto.
  - intros n Hi. apply str_remove_suffix. eapply name_nosc; eauto.
Qed.
