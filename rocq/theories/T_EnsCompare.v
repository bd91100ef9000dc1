(** Property C73: comparison of an unfolded spectrum with an ensemble. *)
From Coq Require Import String List ZArith Bool Arith Lia Reals Lra Permutation.
From Verif Require Import Base S_Order S_EigVals S_Trim S_Quad S_Draw M_Step M_EigVals M_Quad M_Compare S_Compare M_Ensemble M_EnsCompare P_Order P_Step P_EigVals P_TrimStat P_Ols P_Compare T_Compare.
Import ListNotations.
Local Open Scope R_scope.
Local Notation length := List.length.

(** The score a metric name stands for. *)
Definition Score (m : string) (a b : list R) (v : R) : Prop :=
  (m = "mad"%string /\ v = MeanAbs a b) \/ (m = "msqd"%string /\ v = MeanSq a b) \/ (m = "corr"%string /\ v = Pearson a b).
Definition KnownMetric (m : string) : Prop := m = "mad"%string \/ m = "msqd"%string \/ m = "corr"%string.

Lemma make_1d_arr1 (l : list R) : make_1d_array (arr1 l) = Ok l.
Proof. unfold make_1d_array, arr1. cbn [data py_len shape bind]. now rewrite Nat.eqb_refl. Qed.

Lemma compare_init_one (ex cu : list R) name :
  compare_init [arr1 cu] [name] (Some (arr1 ex)) (Some "exp"%string) = Ok (mkcmp [cu] [name] (Some ex) (Some "exp"%string)).
Proof. unfold compare_init. cbn [map_result]. rewrite !make_1d_arr1. reflexivity. Qed.

Lemma cell_one name (v : R) : cell (mkframe [name] [Some "exp"%string] [[v]]) "exp" name = Ok v.
Proof. unfold cell. cbn [f_columns f_index f_data position]. rewrite !String.eqb_refl. reflexivity. Qed.

Section Scores.
Variable junk : list R.
Hypothesis Hjunk : length junk = 1%nat.

Lemma compare_one_score (ex cu : list R) name m : (1 <= length cu)%nat -> length ex = length cu -> KnownMetric m ->
  (m = "corr"%string -> NonConstant ex /\ NonConstant cu) -> exists v, compare_one junk ex cu name m = Ok v /\ Score m ex cu v.
Proof.
  intros Hc He Hm Hn. unfold compare_one. rewrite compare_init_one. cbn [bind].
  destruct junk as [|j0 [|]] eqn:Ej; try discriminate.
  destruct (C55_first_entry (length cu) ex cu [] [name] (Some "exp"%string) [j0] Hc He) as [K1 K2]; try reflexivity.
  { constructor; [reflexivity | constructor]. }
  destruct Hm as [-> | [-> | ->]].
  - cbn [String.eqb Ascii.eqb Bool.eqb]. exists (MeanAbs ex cu). split; [|left; split; reflexivity].
    change ((let! res := mean_abs_difference (mkcmp [cu] [name] (Some ex) (Some "exp"%string)) [j0] in cell res "exp" name) = Ok (MeanAbs ex cu)).
    rewrite K2. cbn [bind skipn map]. apply cell_one.
  - change (exists v, (let! res := mean_sq_difference (mkcmp [cu] [name] (Some ex) (Some "exp"%string)) [j0] in cell res "exp" name) = Ok v /\ Score "msqd" ex cu v).
    exists (MeanSq ex cu). split; [|right; left; split; reflexivity]. rewrite K1. cbn [bind skipn map]. apply cell_one.
  - change (exists v, (let! res := correlate (mkcmp [cu] [name] (Some ex) (Some "exp"%string)) in cell res "exp" name) = Ok v /\ Score "corr" ex cu v).
    destruct (Hn eq_refl) as [N1 N2].
    destruct (C69_correlate (length cu) [cu] [name] (Some "exp"%string)) as [_ K]; [reflexivity|constructor; [reflexivity | constructor]|constructor; [exact N2 | constructor]|].
    destruct (K ex) as [K3 _]; [cbn; lia | exact He | exact N1|].
    exists (Pearson ex cu). split; [|right; right; split; reflexivity]. rewrite K3. cbn [bind map]. apply cell_one.
Qed.

Lemma score_fun m a b v w : Score m a b v -> Score m a b w -> v = w.
Proof.
  intros H1 H2. destruct H1 as [[E1 ->] | [[E1 ->] | [E1 ->]]], H2 as [[E2 ->] | [[E2 ->] | [E2 ->]]];
    first [reflexivity | rewrite E1 in E2; discriminate].
Qed.

Lemma compare_one_lengths (ex cu : list R) name m : length ex <> length cu -> compare_one junk ex cu name m = Raise ValueError.
Proof.
  intro H. unfold compare_one. rewrite compare_init_one. cbn [bind].
  assert (V : validate (mkcmp [cu] [name] (Some ex) (Some "exp"%string)) true = Raise ValueError).
  { unfold validate. cbn [c_curves c_base c_labels c_base_label length Nat.ltb Nat.leb Nat.eqb andb negb nth].
    replace (Nat.eqb (length cu) (length ex)) with false; [reflexivity|]. symmetry. apply Nat.eqb_neq. congruence. }
  unfold mean_abs_difference, mean_sq_difference, difference, correlate. rewrite V. cbn [bind].
  destruct (String.eqb m "mad"); [reflexivity|]. destruct (String.eqb m "msqd"); [reflexivity|]. destruct (String.eqb m "corr"); reflexivity.
Qed.

Lemma fill_scores ex cu name metrics : (1 <= length cu)%nat -> length ex = length cu -> Forall KnownMetric metrics ->
  (In "corr"%string metrics -> NonConstant ex /\ NonConstant cu) ->
  exists ws, fill junk ex cu name metrics = Ok ws /\
    forall o m v, In (o, m, v) ws <-> o = name /\ In m metrics /\ Score m ex cu v.
Proof.
  intros Hc He Hm Hn. induction Hm as [|m metrics Hm Hms IH].
  - exists []. split; [reflexivity|]. intros o m v. cbn. tauto.
  - destruct IH as (ws & E & W); [intro H; apply Hn; now right|].
    destruct (compare_one_score ex cu name m Hc He Hm) as (v0 & E0 & S0); [intros ->; apply Hn; now left|].
    exists ((name, m, v0) :: ws). cbn [fill]. rewrite E0. cbn [bind]. rewrite E. split; [reflexivity|].
    intros o m' v. cbn [In]. rewrite W. split.
    + intros [K | (-> & H2 & H3)]; [injection K as <- <- <-; auto | auto].
    + intros (-> & [<- | H2] & H3); [left; f_equal; eapply score_fun; eassumption | right; auto].
Qed.

Lemma fill_raises ex cu name metrics : metrics <> [] -> length ex <> length cu -> fill junk ex cu name metrics = Raise ValueError.
Proof. intros Hm H. destruct metrics as [|m t]; [congruence|]. cbn [fill]. now rewrite compare_one_lengths. Qed.
End Scores.

Lemma member_true x l : member x l = true <-> In x l.
Proof. unfold member. rewrite existsb_exists. split; [intros (y & Hy & E); apply String.eqb_eq in E; now subst | intro H; exists x; split; [exact H | apply String.eqb_refl]]. Qed.

Lemma second_gaps (l : list R) : map (fun p => nsub (fst p) (snd p)) (combine (skipn 2 l) (firstn (length l - 2) l)) = SecondGaps l.
Proof.
  unfold SecondGaps. destruct l as [|a [|b l]]; [reflexivity|reflexivity|].
  cbn [skipn]. replace (length (a :: b :: l) - 2)%nat with (length l) by (cbn [length]; lia).
  revert a b. induction l as [|c l IH]; intros a b; [reflexivity|].
  cbn [length firstn combine map]. f_equal.
  rewrite IH. cbn [seq map]. rewrite <- seq_shift, map_map. reflexivity.
Qed.

Lemma sorted_asc (l : list R) : Ascending (np_sort l).
Proof. apply np_sort_ascending, notnan_R. Qed.
Lemma linspace_grid (a b : R) n : (1 <= n)%nat -> linspace a b n = EvenGrid a b n.
Proof.
  intro Hn. destruct (Nat.eq_dec n 1) as [->|]; [|apply linspace_even; lia].
  unfold linspace, EvenGrid. cbn. f_equal. lra.
Qed.

Section Main.
Variables (gamma : R -> R) (euler_gamma : R) (kde : list R -> list R -> list R) (rigidity levelvar : list R -> result (list R)) (junk : list R).
Hypothesis Hjunk : length junk = 1%nat.
(** The density estimate is evaluated once per grid point. *)
Hypothesis Hkde : forall s grid, length (kde s grid) = length grid.
Variables (e : ensemble) (vals : list R) (lo hi : R) (gridsize : nat) (Lr Lv rig lev : list R).
Hypothesis Hrig : rigidity Lr = Ok rig /\ length rig = length Lr /\ (1 <= length Lr)%nat.
Hypothesis Hlev : levelvar Lv = Ok lev /\ length lev = length Lv /\ (1 <= length Lv)%nat.
Hypothesis Hgrid : (1 <= gridsize)%nat.

(** The expected and the computed curve of each observable. *)
Definition ModelCurves (o : string) (ex cu : list R) : Prop :=
  (o = "nnsd"%string /\ ex = nnsd e lo hi gridsize None /\ cu = get_kde_values kde vals lo hi false gridsize) \/
  (o = "nnnsd"%string /\ nnnsd gamma e lo hi gridsize None = Ok ex /\ cu = get_kde_values kde vals lo hi true gridsize) \/
  (o = "rigidity"%string /\ ex = map (rigidity_at euler_gamma e) Lr /\ cu = rig) \/
  (o = "levelvar"%string /\ ex = map (levelvar_at euler_gamma e) Lv /\ cu = lev).

(** The ensembles for which the spacing observables are available at this grid size. *)
Definition Supported (observables : list string) : Prop :=
  (In "nnsd"%string observables -> e = Poisson \/ e = GOE \/ (gridsize = Z.to_nat 10000)) /\
  (In "nnnsd"%string observables -> e = Poisson \/ e = GOE).

Lemma kde_length b : length (get_kde_values kde vals lo hi b gridsize) = gridsize.
Proof. unfold get_kde_values. rewrite Hkde. apply linspace_length. Qed.

Lemma nnsd_length : (e = Poisson \/ e = GOE \/ gridsize = Z.to_nat 10000) -> length (nnsd e lo hi gridsize None) = gridsize.
Proof.
  intro H. unfold nnsd. rewrite map_length. unfold nnsd_grid. destruct e; rewrite linspace_length; try reflexivity;
    (destruct H as [H | [H | H]]; [discriminate | discriminate | congruence]).
Qed.

Lemma scores_model (observables metrics : list string) : Supported observables -> Forall KnownMetric metrics ->
  (In "corr"%string metrics -> forall o ex cu, In o observables -> ModelCurves o ex cu -> NonConstant ex /\ NonConstant cu) ->
  exists cells, ensemble_compare gamma euler_gamma kde rigidity levelvar junk e vals observables metrics lo hi gridsize Lr Lv = Ok cells /\
    forall o m v, In (o, m, v) cells <-> In o observables /\ In m metrics /\ exists ex cu, ModelCurves o ex cu /\ Score m ex cu v.
Proof.
  intros [Hs1 Hs2] Hm Hn. unfold ensemble_compare.
  assert (K : forall name (ex cu : list R) (b : bool), (b = true -> ModelCurves name ex cu /\ In name observables /\ (1 <= length cu)%nat /\ length ex = length cu) ->
    exists ws, (if b then fill junk ex cu name metrics else Ok []) = Ok ws /\
      forall o m v, In (o, m, v) ws <-> b = true /\ o = name /\ In m metrics /\ Score m ex cu v).
  { intros name ex cu b Hb. destruct b.
    - destruct (Hb eq_refl) as (H1 & H2 & H3 & H4). destruct (fill_scores junk Hjunk ex cu name metrics H3 H4 Hm) as (ws & E & W).
      + intro Hc. now apply (Hn Hc name).
      + exists ws. split; [exact E|]. intros. rewrite W. tauto.
    - exists []. split; [reflexivity|]. intros. cbn. intuition discriminate. }
  destruct Hrig as (R1 & R2 & R3), Hlev as (V1 & V2 & V3).
  destruct (K "nnsd"%string (nnsd e lo hi gridsize None) (get_kde_values kde vals lo hi false gridsize) (member "nnsd" observables)) as (w1 & E1 & W1).
  { intro Hb. apply member_true in Hb. split; [left; auto|]. split; [exact Hb|]. rewrite kde_length. split; [exact Hgrid | apply nnsd_length, Hs1, Hb]. }
  assert (K2 : exists ws, (if member "nnnsd" observables then let! ex := nnnsd gamma e lo hi gridsize None in fill junk ex (get_kde_values kde vals lo hi true gridsize) "nnnsd" metrics else Ok []) = Ok ws /\
    forall o m v, In (o, m, v) ws <-> member "nnnsd" observables = true /\ o = "nnnsd"%string /\ In m metrics /\
      exists ex, nnnsd gamma e lo hi gridsize None = Ok ex /\ Score m ex (get_kde_values kde vals lo hi true gridsize) v).
  { destruct (member "nnnsd" observables) eqn:Eb.
    - apply member_true in Eb. assert (exists ex, nnnsd gamma e lo hi gridsize None = Ok ex /\ length ex = gridsize) as (ex & Ex & Lx).
      { destruct (Hs2 Eb) as [-> | ->]; eexists; (split; [reflexivity|]); rewrite !map_length; apply linspace_length. }
      destruct (K "nnnsd"%string ex (get_kde_values kde vals lo hi true gridsize) true) as (ws & E & W).
      + intros _. split; [right; left; auto|]. split; [exact Eb|]. rewrite kde_length. split; [exact Hgrid | exact Lx].
      + exists ws. rewrite Ex. cbn [bind]. split; [exact E|]. intros o m v. rewrite W. split.
        * intros (H1 & H2 & H3 & H4). repeat split; eauto.
        * intros (H1 & H2 & H3 & ex' & H4 & H5). assert (ex' = ex) by congruence. subst. auto.
    - exists []. split; [reflexivity|]. intros. cbn. intuition discriminate. }
  destruct K2 as (w2 & E2 & W2).
  destruct (K "rigidity"%string (map (rigidity_at euler_gamma e) Lr) rig (member "rigidity" observables)) as (w3 & E3 & W3).
  { intro Hb. apply member_true in Hb. split; [right; right; left; auto|]. split; [exact Hb|]. rewrite map_length. lia. }
  destruct (K "levelvar"%string (map (levelvar_at euler_gamma e) Lv) lev (member "levelvar" observables)) as (w4 & E4 & W4).
  { intro Hb. apply member_true in Hb. split; [right; right; right; auto|]. split; [exact Hb|]. rewrite map_length. lia. }
  exists (w1 ++ w2 ++ w3 ++ w4)%list. split.
  - rewrite E1. cbn [bind]. rewrite E2. cbn [bind]. rewrite R1, V1. cbn [bind]. unfold spectral_rigidity, level_variance. cbn [L_grid].
    rewrite E3. cbn [bind]. rewrite E4. reflexivity.
  - intros o m v. rewrite !in_app_iff, W1, W2, W3, W4, !member_true. unfold ModelCurves. split.
    + intros [(H1 & -> & H2 & H3) | [(H1 & -> & H2 & ex & H3 & H4) | [(H1 & -> & H2 & H3) | (H1 & -> & H2 & H3)]]];
        (split; [exact H1|]; split; [exact H2|]).
      * do 2 eexists. split; [left; auto | exact H3].
      * do 2 eexists. split; [right; left; split; [reflexivity|]; split; [exact H3 | reflexivity] | exact H4].
      * do 2 eexists. split; [right; right; left; auto | exact H3].
      * do 2 eexists. split; [right; right; right; auto | exact H3].
    + intros (H1 & H2 & ex & cu & [(-> & -> & ->) | [(-> & Hx & ->) | [(-> & -> & ->) | (-> & -> & ->)]]] & H3); [left|right; left|right; right; left|right; right; right]; repeat split; eauto.
Qed.

(** The expected and the observed curve of each observable: the ensemble's own formula on the default grid, and the density estimated
    from the spacings (next-nearest spacings) of the unfolded values, or the computed statistic. *)
Definition Curves (o : string) (ex cu : list R) : Prop :=
  (o = "nnsd"%string /\ ex = nnsd e lo hi gridsize None /\
     exists srt, Permutation vals srt /\ Ascending srt /\ cu = kde (Gaps srt) (EvenGrid lo hi gridsize)) \/
  (o = "nnnsd"%string /\ nnnsd gamma e lo hi gridsize None = Ok ex /\
     exists s, Permutation (SecondGaps vals) s /\ Ascending s /\ cu = kde s (EvenGrid lo hi gridsize)) \/
  (o = "rigidity"%string /\ ex = map (rigidity_at euler_gamma e) Lr /\ cu = rig) \/
  (o = "levelvar"%string /\ ex = map (levelvar_at euler_gamma e) Lv /\ cu = lev).

Lemma curves_model o ex cu : ModelCurves o ex cu <-> Curves o ex cu.
Proof.
  unfold ModelCurves, Curves, get_kde_values. rewrite linspace_grid by exact Hgrid.
  assert (A : forall l srt : list R, Permutation l srt -> Ascending srt -> np_sort l = srt).
  { intros l srt P S. apply sorted_perm_eq.
    - apply StronglySorted_R, sorted_asc.
    - now apply StronglySorted_R.
    - rewrite <- P. symmetry. apply np_sort_perm. }
  assert (B : spacings vals = Gaps (np_sort vals)) by (unfold spacings; apply ndiff_Gaps).
  rewrite B, second_gaps. split; intros [H | [H | H]]; auto.
  - left. destruct H as (H1 & H2 & ->). repeat split; auto. exists (np_sort vals). repeat split; auto. apply np_sort_perm. apply sorted_asc.
  - right. left. destruct H as (H1 & H2 & ->). repeat split; auto. exists (np_sort (SecondGaps vals)). repeat split; auto. apply np_sort_perm. apply sorted_asc.
  - left. destruct H as (H1 & H2 & srt & P & S & ->). repeat split; auto. now rewrite (A _ _ P S).
  - right. left. destruct H as (H1 & H2 & srt & P & S & ->). repeat split; auto. now rewrite (A _ _ P S).
Qed.

(** Every requested cell holds the score of the observed curve against the expected one, and no other cell is filled. *)
Theorem C73_scores (observables metrics : list string) : Supported observables -> Forall KnownMetric metrics ->
  (In "corr"%string metrics -> forall o ex cu, In o observables -> Curves o ex cu -> NonConstant ex /\ NonConstant cu) ->
  exists cells, ensemble_compare gamma euler_gamma kde rigidity levelvar junk e vals observables metrics lo hi gridsize Lr Lv = Ok cells /\
    forall o m v, In (o, m, v) cells <-> In o observables /\ In m metrics /\ exists ex cu, Curves o ex cu /\ Score m ex cu v.
Proof.
  intros Hs Hm Hn. destruct (scores_model observables metrics Hs Hm) as (cells & E & W).
  - intros Hc o ex cu Ho H. apply curves_model in H. now apply (Hn Hc o).
  - exists cells. split; [exact E|]. intros o m v. rewrite W. split.
    + intros (H1 & H2 & ex & cu & H3 & H4). repeat split; auto. exists ex, cu. split; [now apply curves_model|exact H4].
    + intros (H1 & H2 & ex & cu & H3 & H4). repeat split; auto. exists ex, cu. split; [now apply curves_model|exact H4].
Qed.

(** The unitary and symplectic ensembles: the spacing density always has 10000 points, so any other grid size fails; the next-nearest
    spacing density is not implemented. *)
Theorem C73_gue_gse (observables metrics : list string) : (e = GUE \/ e = GSE) -> metrics <> [] ->
  (In "nnsd"%string observables -> gridsize <> Z.to_nat 10000 ->
     ensemble_compare gamma euler_gamma kde rigidity levelvar junk e vals observables metrics lo hi gridsize Lr Lv = Raise ValueError) /\
  (In "nnnsd"%string observables -> ~ In "nnsd"%string observables ->
     ensemble_compare gamma euler_gamma kde rigidity levelvar junk e vals observables metrics lo hi gridsize Lr Lv = Raise NotImplementedErr).
Proof.
  intros He Hm. split.
  - intros Hi Hg. unfold ensemble_compare. rewrite (proj2 (member_true _ _) Hi). rewrite fill_raises; [reflexivity|exact Hm|].
    rewrite kde_length. unfold nnsd. rewrite map_length. destruct He as [-> | ->]; cbn [nnsd_grid]; rewrite linspace_length; congruence.
  - intros Hi Hni. unfold ensemble_compare. rewrite (proj2 (member_true _ _) Hi).
    replace (member "nnsd" observables) with false by (symmetry; destruct (member "nnsd" observables) eqn:E; [apply member_true in E; contradiction | reflexivity]).
    cbn [bind]. destruct He as [-> | ->]; reflexivity.
Qed.
End Main.
Print Assumptions C73_scores.
Print Assumptions C73_gue_gse.

(** With the default arguments the comparison with the unitary ensemble never succeeds. *)
Theorem C73_defaults_refuted :
  ~ (forall e gamma euler_gamma kde rigidity levelvar junk vals Lr Lv, length junk = 1%nat ->
       (forall s grid : list R, length (kde s grid) = length grid) -> (forall L, exists r, rigidity L = Ok r /\ length r = length L) ->
       (forall L, exists r, levelvar L = Ok r /\ length r = length L) ->
       exists cells, ensemble_compare gamma euler_gamma kde rigidity levelvar junk e vals ["nnsd"; "nnnsd"; "rigidity"; "levelvar"]%string ["msqd"]%string
                       (1 / 2) (5 / 2) (Z.to_nat 5000) Lr Lv = Ok cells).
Proof.
  intro H. destruct (H GUE (fun _ => 0) 0 (fun _ g => g) (fun L => Ok L) (fun L => Ok L) [0] [1; 2; 4] [2] [2]) as (cells & E); try reflexivity; eauto.
  destruct (C73_gue_gse (fun _ => 0) 0 (fun _ g => g) (fun L => Ok L) (fun L => Ok L) [0] (fun _ _ => eq_refl) GUE [1; 2; 4] (1 / 2) (5 / 2) (Z.to_nat 5000) [2] [2]
    ["nnsd"; "nnnsd"; "rigidity"; "levelvar"]%string ["msqd"]%string (or_introl eq_refl)) as [K _]; [discriminate|].
  assert (Z.to_nat 5000 <> Z.to_nat 10000) as Hn by (intro X; apply (f_equal Z.of_nat) in X; rewrite !Z2Nat.id in X by lia; discriminate).
  specialize (K (or_introl eq_refl) Hn). pose proof (eq_trans (eq_sym E) K) as X. discriminate X.
Qed.
Print Assumptions C73_defaults_refuted.

(** Observed rigidity [1, 1] at L = 2, 5 against the GOE expectation, both difference metrics. *)
Example C73_example : exists a b,
  ensemble_compare (fun _ => 0) 0 (fun _ g => g) (fun L => Ok [1; 1]) (fun L => Ok L) [0] Poisson [1; 2; 4] ["rigidity"]%string ["msqd"; "mad"]%string 0 1 5 [15; 30] [2]
    = Ok [("rigidity", "msqd", a); ("rigidity", "mad", b)]%string /\ a = 1 / 2 /\ b = 1 / 2.
Proof.
  do 2 eexists. split.
  - unfold ensemble_compare. cbn [member existsb String.eqb Ascii.eqb Bool.eqb orb bind fill spectral_rigidity L_grid map rigidity_at].
    unfold compare_one. rewrite compare_init_one. cbn [bind String.eqb Ascii.eqb Bool.eqb].
    assert (HA : AllLength 2 [[1; 1]]) by (constructor; [reflexivity | constructor]).
    destruct (C55_first_entry 2 [15 / 15; 30 / 15] [1; 1] [] ["rigidity"%string] (Some "exp"%string) [0] (le_S _ _ (le_n 1)) eq_refl HA eq_refl eq_refl) as [K1 K2].
    rewrite K1, K2. cbn [bind skipn map]. rewrite !cell_one. reflexivity.
  - unfold MeanSq, MeanAbs, Rmean. cbn [combine map Rsum fst snd length INR].
    replace (15 / 15 - 1) with 0 by lra. replace (30 / 15 - 1) with 1 by lra. rewrite Rabs_R0, Rabs_R1. split; field.
Qed.

(** The next-nearest spacings that enter the comparison. *)
Example C73_second_gaps_case : SecondGaps [1; 2; 4; 8] = [3; 6] /\
  get_kde_values (fun s _ => s) [1; 2; 4; 8] 0 1 true 5 = [3; 6].
Proof.
  assert (E : SecondGaps [1; 2; 4; 8] = [3; 6]) by (unfold SecondGaps; cbn [length Nat.sub seq map nth Nat.add]; apply f_equal2; [lra|]; apply f_equal2; [lra|reflexivity]).
  split; [exact E|]. unfold get_kde_values. rewrite second_gaps, E. apply sorted_perm_eq.
  - apply StronglySorted_R, sorted_asc.
  - repeat constructor; lra.
  - symmetry. apply np_sort_perm.
Qed.
