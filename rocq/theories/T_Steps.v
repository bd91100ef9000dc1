(** C144: the trimming steps of a report, printed and drawn. *)
From Coq Require Import String List ZArith Bool Arith Lia Reals Lra QArith Sorted.
From Verif Require Import Base S_Order S_EigVals S_Trim M_Step M_EigVals M_Trim M_Smooth M_Report M_Best M_Draw M_Steps S_Smooth S_Draw P_Order P_Step P_EigVals P_Trim P_TrimStat P_Ols T_Draw.
Import ListNotations.
Local Open Scope R_scope.
Local Notation length := List.length.
Local Notation iter := (trimiter R (list (@column R))).

(** What is printed about the [i]-th iteration. *)
Definition LineOf (rnd : R -> R) (i : nat) (t : iter) (l : printed) : Prop :=
  exists percent ix mean var msqe, l = PIter (i, percent, ix, mean, var, msqe) /\ trim_indices t = Ok ix /\
    percent = rnd (100 * (1 - INR (length (ti_eigs t)) / INR (length (ti_origs t)))) /\
    TrimmedMean (map (fun c => Rmean (c_spacings c)) (ti_fits t)) mean /\ TrimmedMean (map (fun c => Rvar1 (c_spacings c)) (ti_fits t)) var /\
    TrimmedMean (map c_msqe (ti_fits t)) msqe.
(** Everything printed: one line per iteration in order, then the legend. *)
Definition Printout (rnd : R -> R) (its : list iter) (out : list printed) : Prop :=
  length out = S (length its) /\ nth_error out (length its) = Some PLegend /\
  forall i t, nth_error its i = Some t -> exists l, nth_error out i = Some l /\ LineOf rnd i t l.

Lemma print_ok rnd (its : list iter) k : (forall i t, nth_error its i = Some t -> ti_id t = (k + i)%nat /\ ti_eigs t <> [] /\ ti_origs t <> []) ->
  exists out, print_iters rnd its = (out, Ok tt) /\ length out = length its /\
    forall i t, nth_error its i = Some t -> exists l, nth_error out i = Some l /\ LineOf rnd (k + i) t l.
Proof.
  revert k. induction its as [|t its IH]; intros k H.
  - exists []. split; [reflexivity|]. split; [reflexivity|]. intros [|i] t Ht; discriminate.
  - destruct (H 0%nat t eq_refl) as (H1 & H2 & H3). destruct (C85_summary rnd t H2 H3) as (pc & ix & m & v & q & E & Q1 & Q2 & Q3 & Q4 & Q5).
    destruct (IH (S k)) as (out & Eo & Lo & Ho). { intros i t' Ht'. destruct (H (S i) t' Ht') as (K1 & K2 & K3). split; [lia|auto]. }
    cbn [print_iters]. rewrite E, Eo. eexists. split; [reflexivity|]. split; [cbn; lia|]. intros [|i] t' Ht'.
    + injection Ht' as <-. eexists. split; [reflexivity|]. unfold LineOf. exists pc, ix, m, v, q. rewrite H1. auto 8.
    + destruct (Ho i t' Ht') as (l & Hl & HL). exists l. split; [exact Hl|]. now replace (k + S i)%nat with (S k + i)%nat by lia.
Qed.

Lemma mask_points {A} (e : list A) (c : list bool) (p : list (A * Z * bool)) : length e = length c -> length p = length e ->
  (forall j v o, nth_error e j = Some v -> nth_error c j = Some o -> nth_error p j = Some (v, Z.of_nat j + 1, o)%Z) ->
  map (fun x => fst (fst x)) p = e /\ map fst (filter (fun x => negb (snd x)) (combine e c)) = map (fun x => fst (fst x)) (filter (fun x => negb (snd x)) p).
Proof.
  intros H1 H2 H.
  assert (forall p (e : list A) (c : list bool), length e = length c -> length p = length e -> (forall j v o, nth_error e j = Some v -> nth_error c j = Some o -> exists z : Z, nth_error p j = Some (v, z, o)) ->
    map (fun x => fst (fst x)) p = e /\ map fst (filter (fun x => negb (snd x)) (combine e c)) = map (fun x => fst (fst x)) (filter (fun x => negb (snd x)) p)) as G.
  { clear. induction p as [|x p IH]; intros [|a e] [|b c] H1 H2 H; try discriminate; [split; reflexivity|].
    destruct (H 0%nat a b eq_refl eq_refl) as (z & Hz). injection Hz as ->.
    destruct (IH e c) as (I1 & I2); [cbn in *; lia|cbn in *; lia|intros j v o Hv Ho; apply (H (S j) v o Hv Ho)|].
    cbn [map combine filter fst snd]. split; [now rewrite I1|]. destruct b; cbn [negb map fst]; rewrite I2; reflexivity. }
  apply G; auto. intros j v o Hv Ho. exists (Z.of_nat j + 1)%Z. auto.
Qed.

(** C144. For every report: the printed lines, one panel per iteration, only the first one titled "No trim", and every panel shows
    exactly the points the panel before it shows as inliers. *)
Theorem C144_steps : forall rnd hbos fit values max_trim max_iters its width log_info,
  (forall id l lab, hbos id l = Ok lab -> length lab = length l) ->
  trim_iters hbos fit values max_trim max_iters = Ok its ->
  (1 <= width)%Z -> ~ (width = 1%Z /\ length its = 1%nat) ->
  exists out height cells, plot_trim_steps rnd its width log_info = (out, Ok (height, width, cells)) /\
    (log_info = false -> out = []) /\ (log_info = true -> Printout rnd its out) /\
    ((height - 1) * width < Z.of_nat (length its) <= height * width)%Z /\ Z.of_nat (length cells) = (height * width)%Z /\
    (forall i t, nth_error its i = Some t -> exists p, nth_error cells i = Some (Some p) /\ PanelOf rnd t p /\ (p_removed p = None <-> i = 0%nat)) /\
    (forall i, (length its <= i < length cells)%nat -> nth_error cells i = Some None) /\
    (forall i p q, nth_error cells i = Some (Some p) -> nth_error cells (S i) = Some (Some q) ->
       map (fun x => fst (fst x)) (p_points q) = map (fun x => fst (fst x)) (filter (fun x => negb (snd x)) (p_points p))).
Proof.
  intros rnd hbos fit values max_trim max_iters its width log Hh H Hw Hn1.
  pose proof (row_ok hbos fit Hh _ _ _ _ H) as Hrow.
  assert (Hwf : forall i t, nth_error its i = Some t -> ti_id t = (0 + i)%nat /\ ti_eigs t <> [] /\ ti_origs t <> []).
  { intros i t Ht. destruct (Hrow i t Ht) as (R1 & R2 & (W1 & W2 & W3) & (p & s & R4) & _). split; [exact R1|]. split; [exact W3|].
    rewrite R2, R4. intros Q. apply app_eq_nil in Q. destruct Q as [_ Q]. apply app_eq_nil in Q. tauto. }
  assert (Hne : its <> []). { apply trim_iters_ok in H. destruct H as (t0 & rest & -> & _). discriminate. }
  destruct (C85_panels rnd its width Hw Hne Hn1) as (h & cells & E & Hh1 & Hc & Hin & Hout).
  { apply Forall_forall. intros t Ht. apply In_nth_error in Ht. destruct Ht as (i & Ht). destruct (Hwf i t Ht) as (_ & W2 & W3). destruct (Hrow i t Ht) as (_ & _ & (W1 & _) & _). auto. }
  destruct (print_ok rnd its 0 Hwf) as (out & Eo & Lo & Ho).
  exists (if log then out ++ [PLegend] else []), h, cells. split; [|split; [|split; [|split; [exact Hh1|split; [exact Hc|split; [|split; [exact Hout|]]]]]]].
  - unfold plot_trim_steps. destruct log; [|cbn; now rewrite E]. rewrite Eo. destruct its as [|t its']; [congruence|].
    destruct (Hwf 0%nat t eq_refl) as (_ & W2 & W3). destruct (C85_summary rnd t W2 W3) as (? & ? & ? & ? & ? & -> & _). cbn [bind]. now rewrite E.
  - now intros ->.
  - intros ->. split; [rewrite app_length; cbn; lia|]. split; [rewrite nth_error_app2, Lo, Nat.sub_diag by lia; reflexivity|].
    intros i t Ht. destruct (Ho i t Ht) as (l & Hl & HL). exists l. split; [|exact HL]. rewrite nth_error_app1; [exact Hl|]. apply nth_error_Some. congruence.
  - intros i t Ht. destruct (Hin i t Ht) as (p & Hp & HP). exists p. split; [exact Hp|]. split; [exact HP|]. destruct HP as (-> & _). now rewrite (proj1 (Hwf i t Ht)).
  - intros i p q Hp Hq.
    assert (G : forall i p, nth_error cells i = Some (Some p) -> exists t, nth_error its i = Some t /\ PanelOf rnd t p).
    { intros j p' Hp'. destruct (nth_error its j) as [t|] eqn:Et; [|].
      - destruct (Hin j t Et) as (p'' & Hp'' & HP). exists t. split; [reflexivity|]. congruence.
      - apply nth_error_None in Et. rewrite Hout in Hp'; [discriminate|]. split; [exact Et|]. apply nth_error_Some. congruence. }
    destruct (G i p Hp) as (a & Ha & (_ & _ & _ & _ & La & Pa)). destruct (G (S i) q Hq) as (b & Hb & (_ & _ & _ & _ & Lb & Pb)).
    destruct (Hrow i a Ha) as (_ & _ & (Wa & _) & _). destruct (Hrow (S i) b Hb) as (_ & _ & (Wb & _) & _).
    destruct (mask_points _ _ _ Wa La Pa) as (_ & Ma). destruct (mask_points _ _ _ Wb Lb Pb) as (Mb & _). rewrite Mb, <- Ma.
    apply trim_iters_ok in H as (t0 & rest & -> & H0 & Hl). apply (trim_loop_ok hbos fit Hh) in Hl as (_ & Hl & _).
    destruct (Hl i a b Ha Hb) as ((J1 & J2 & J3 & J4 & J5) & _). rewrite J3. reflexivity.
Qed.
Print Assumptions C144_steps.

(** C144. A report of a single iteration in one column: the lines are printed and then the call fails. *)
Theorem C144_one_column_refuted : forall rnd hbos fit values max_trim max_iters its,
  (forall id l lab, hbos id l = Ok lab -> length lab = length l) ->
  trim_iters hbos fit values max_trim max_iters = Ok its -> length its = 1%nat ->
  exists out, plot_trim_steps rnd its 1 true = (out, Raise AttributeError) /\ Printout rnd its out.
Proof.
  intros rnd hbos fit values max_trim max_iters its Hh H L. pose proof (row_ok hbos fit Hh _ _ _ _ H) as Hrow.
  apply trim_iters_ok in H as (t & rest & -> & H0 & _). cbn in L. injection L as L. apply length_zero_iff_nil in L. subst rest.
  assert (Hwf : forall i t', nth_error [t] i = Some t' -> ti_id t' = (0 + i)%nat /\ ti_eigs t' <> [] /\ ti_origs t' <> []).
  { intros i t' Ht. destruct (Hrow i t' Ht) as (R1 & R2 & (W1 & W2 & W3) & (p & s & R4) & _). split; [exact R1|]. split; [exact W3|].
    rewrite R2, R4. intros Q. apply app_eq_nil in Q. destruct Q as [_ Q]. apply app_eq_nil in Q. tauto. }
  destruct (print_ok rnd [t] 0 Hwf) as (out & Eo & Lo & Ho). exists (out ++ [PLegend]). split.
  - unfold plot_trim_steps. rewrite Eo. destruct (Hwf 0%nat t eq_refl) as (_ & W2 & W3). destruct (C85_summary rnd t W2 W3) as (? & ? & ? & ? & ? & -> & _). reflexivity.
  - split; [rewrite app_length; cbn in *; lia|]. split; [rewrite nth_error_app2 by lia; rewrite Lo; reflexivity|].
    intros i t' Ht. destruct (Ho i t' Ht) as (l & Hl & HL). exists l. split; [|exact HL]. rewrite nth_error_app1; [exact Hl|]. apply nth_error_Some. congruence.
Qed.
Print Assumptions C144_one_column_refuted.

Lemma trim_iters_count {F U} {N : Num F} hbos (fit : list F -> result U) vals mt mi its : trim_iters hbos fit vals mt mi = Ok its -> (length its <= S (Z.to_nat mi))%nat.
Proof.
  intro H. apply trim_iters_ok in H as (t0 & rest & -> & _ & H). cbn [length]. apply le_n_S. revert t0 rest H. generalize (Z.to_nat mi). intro k.
  induction k as [|k IH]; intros t0 rest H; cbn [trim_loop] in H; [injection H as <-; cbn; lia|].
  destruct (next_iter hbos fit t0) as [t|]; [|discriminate]. cbn [bind] in H. destruct (ngt _ _); [injection H as <-; cbn; lia|].
  destruct (is_all_inliers t); [injection H as <-; cbn; lia|]. destruct (trim_loop hbos fit k mt t) as [r|] eqn:E; [|discriminate]. injection H as <-. cbn [length]. apply le_n_S. exact (IH _ _ E).
Qed.
(** C144. [Eigenvalues.trim_report()] makes at most seven rounds of trimming and fits the polynomials of degree 3 to 11 and the Gompertz curve, and no spline (documented: cubic
    splines with eleven smoothing factors). *)
Theorem C144_defaults_refuted : forall (F : Type) (N : Num F) (rnd store : F -> F) fmt3 smooths hbos fits half vals f its u,
  default_trim_report rnd store fmt3 smooths hbos fits half vals = Ok (f, its, u) ->
  u = np_sort vals /\ trim_iters hbos (fits [3; 4; 5; 6; 7; 8; 9; 10; 11]%Z [] [] true false) vals half 7 = Ok its /\ (length its <= 8)%nat /\
  map fst (f_cols f) = ["trim_percent"; "trim_low"; "trim_high"]%string ++
    flat_map (fun s => [s ++ "--mean_spacing"; s ++ "--var_spacing"; s ++ "--msqe"; s ++ "--score"]%string)
      ["poly_3"; "poly_4"; "poly_5"; "poly_6"; "poly_7"; "poly_8"; "poly_9"; "poly_10"; "poly_11"; "gompertz"]%string.
Proof.
  intros F N rnd store fmt3 smooths hbos fits half vals f its u H. unfold default_trim_report, trim_report in H.
  destruct (trim_iters _ _ _ _ _) as [i|] eqn:Ei; [|discriminate]. cbn [bind] in H. unfold summary in H.
  destruct (for_each _ i) as [rows|]; [|discriminate]. cbn [bind] in H. injection H as <- <- <-. split; [reflexivity|]. split; [reflexivity|]. split; [|reflexivity].
  pose proof (trim_iters_count hbos _ _ _ _ _ Ei). lia.
Qed.
Print Assumptions C144_defaults_refuted.

(** Three values, a detector that rejects nothing and a fit oracle returning one column per requested polynomial: the call succeeds. *)
Example C144_defaults_case : exists f its,
  default_trim_report (F := Q) (fun x => x) (fun x => x) (fun _ => EmptyString) [] (fun _ l => Ok (repeat false (length l)))
    (fun degrees _ _ _ _ l => Ok (map (fun d => mkcol ("poly_" ++ str_of_int d)%string l [1; 1]%Q 0%Q (@CNone Q)) degrees)) (1 # 2)%Q [2; 1; 3]%Q = Ok (f, its, [1; 2; 3]%Q).
Proof. eexists. eexists. vm_compute. reflexivity. Qed.

(** Four values of which HBOS rejects the last in the first round: two lines, two panels, the second without the last value. *)
Definition ex_col := mkcol "poly_3" [0; 1; 3] [1; 2] 5 (@CNone R).
Definition ex_hbos (id : nat) (l : list R) : result (list bool) := Ok (match id with O => repeat false (length l - 1) ++ repeat true (Nat.min 1 (length l)) | _ => repeat false (length l) end).
Example C144_case : exists its out p q, trim_iters ex_hbos (fun _ => Ok [ex_col]) [0; 1; 3; 9] (1 / 2) 7 = Ok its /\ length its = 2%nat /\
  plot_trim_steps (fun x => x) its 4 true = (out, Ok (1%Z, 4%Z, [Some p; Some q; None; None])) /\ length out = 3%nat /\
  p_points p = [(0, 1%Z, false); (1, 2%Z, false); (3, 3%Z, false); (9, 4%Z, true)] /\ map (fun x => fst (fst x)) (p_points q) = [0; 1; 3] /\ p_removed q = Some 25.
Proof.
  assert (Hh : forall id l lab, ex_hbos id l = Ok lab -> length lab = length l).
  { intros [|id] [|x l] lab [= <-]; try reflexivity; cbn [length]; rewrite ?app_length, repeat_length; cbn [length]; try rewrite repeat_length; lia. }
  assert (S : np_sort [0; 1; 3; 9] = [0; 1; 3; 9]).
  { apply np_sort_id, Ascending_NpLe; [apply notnan_R|]. apply StronglySorted_R. repeat (apply SSorted_cons || apply Forall_cons || apply SSorted_nil || apply Forall_nil || lra). }
  set (its := [mkiter [0; 1; 3; 9] [0; 1; 3; 9] 0 [false; false; false; true] [ex_col]; mkiter [0; 1; 3; 9] [0; 1; 3] 1 [false; false; false] [ex_col]]).
  assert (E : trim_iters ex_hbos (fun _ => Ok [ex_col]) [0; 1; 3; 9] (1 / 2) 7 = Ok its).
  { assert (Nx : forall k cur, ti_id cur = 0%nat -> ti_origs cur = [0; 1; 3; 9] -> inliers cur = [0; 1; 3] ->
      trim_loop ex_hbos (fun _ => Ok [ex_col]) (Datatypes.S k) (1 / 2) cur = Ok [mkiter [0; 1; 3; 9] [0; 1; 3] 1 [false; false; false] [ex_col]]).
    { intros k cur H1 H2 H3. cbn [trim_loop]. unfold next_iter. rewrite H1, H2, H3. unfold new_iter, ex_hbos. cbn [length repeat bind].
      change (outlier_labels [false; false; false]) with (@Ok (list bool) [false; false; false]). cbn [bind].
      match goal with |- context [ngt ?a ?b] => replace (ngt a b) with false end; [reflexivity|]. symmetry. unfold ngt. apply nlt_R_false.
      unfold proportion_removed, nlen. cbn. lra. }
    unfold trim_iters. rewrite S. unfold new_iter, ex_hbos. cbn [length Nat.sub repeat app Nat.min bind].
    change (outlier_labels [false; false; false; true]) with (@Ok (list bool) [false; false; false; true]). cbn [bind].
    change (Z.to_nat 7) with 7%nat. rewrite Nx; reflexivity. }
  destruct (C144_steps (fun x => x) _ _ _ _ _ _ 4 true Hh E) as (out & h & cells & P & _ & Po & P1 & P2 & P3 & P4 & P5); [lia|cbn; lia|].
  cbn [length its] in P1. assert (h = 1%Z) as -> by lia. assert (Lc : length cells = 4%nat) by lia.
  destruct (P3 0%nat _ eq_refl) as (p & Hp & HP & _). destruct (P3 1%nat _ eq_refl) as (q & Hq & HQ & HQ0).
  pose proof (P4 2%nat ltac:(cbn; lia)) as C2. pose proof (P4 3%nat ltac:(cbn; lia)) as C3. pose proof (P5 0%nat p q Hp Hq) as HPQ.
  destruct cells as [|c0 [|c1 [|c2 [|c3 [|]]]]]; try discriminate. cbn in Hp, Hq, C2, C3. injection Hp as ->. injection Hq as ->. injection C2 as ->. injection C3 as ->.
  exists its, out, p, q. split; [exact E|]. split; [reflexivity|]. split; [exact P|]. split; [apply (Po eq_refl)|].
  assert (Pp : p_points p = [(0, 1%Z, false); (1, 2%Z, false); (3, 3%Z, false); (9, 4%Z, true)]).
  { destruct HP as (_ & _ & _ & _ & L & Q). cbn in L. pose proof (Q 0%nat 0 false eq_refl eq_refl) as Q0. pose proof (Q 1%nat 1 false eq_refl eq_refl) as Q1.
    pose proof (Q 2%nat 3 false eq_refl eq_refl) as Q2. pose proof (Q 3%nat 9 true eq_refl eq_refl) as Q3.
    destruct (p_points p) as [|x0 [|x1 [|x2 [|x3 [|]]]]]; try discriminate. cbn in Q0, Q1, Q2, Q3. congruence. }
  split; [exact Pp|]. split; [rewrite HPQ, Pp; reflexivity|].
  destruct HQ as (R1 & R2 & _). destruct (p_removed q) as [v|]; [|discriminate (proj1 HQ0 eq_refl)]. rewrite (R2 v eq_refl). f_equal. cbn. lra.
Qed.

(** Nothing is rejected and no further iteration is allowed: one line, the legend, and no figure in one column. *)
Example C144_one_column_case : exists its out, trim_iters (fun _ l => Ok (repeat false (length l))) (fun _ => Ok [ex_col]) [0; 1; 3] (1 / 2) 0 = Ok its /\
  plot_trim_steps (fun x => x) its 1 true = (out, Raise AttributeError) /\ length out = 2%nat.
Proof.
  assert (E : exists its, trim_iters (fun _ l => Ok (repeat false (length l))) (fun _ => Ok [ex_col]) [0; 1; 3] (1 / 2) 0 = Ok its /\ length its = 1%nat).
  { unfold trim_iters. replace (np_sort [0; 1; 3]) with [0; 1; 3]; [eexists; split; reflexivity|].
    symmetry. apply np_sort_id, Ascending_NpLe; [apply notnan_R|]. apply StronglySorted_R. repeat (apply SSorted_cons || apply Forall_cons || apply SSorted_nil || apply Forall_nil || lra). }
  destruct E as (its & E & L). assert (Hh : forall (id : nat) (l : list R) lab, (fun (_ : nat) (l : list R) => Ok (repeat false (length l))) id l = Ok lab -> length lab = length l) by (intros id l lab [= <-]; apply repeat_length).
  destruct (C144_one_column_refuted (fun x => x) _ _ _ _ _ its Hh E L) as (out & P & Q).
  exists its, out. split; [exact E|]. split; [exact P|]. destruct Q as (Q & _). now rewrite Q, L.
Qed.
