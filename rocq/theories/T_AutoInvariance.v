(** Property C133: trim reports and the automatic unfolding do not depend on the unit or the origin of the eigenvalues. *)
From Coq Require Import String List ZArith Bool Arith Lia Reals Lra Sorting.Sorted Sorting.Permutation.
From Verif Require Import Base S_Order S_EigVals S_Trim M_Enum M_Trim M_Smooth M_Report S_Smooth S_Fit P_Order P_Step P_EigVals P_Trim P_TrimStat P_Smooth P_Fit T_Fit P_Report P_ReportStr T_Report.
Import ListNotations.
Local Open Scope R_scope.
Local Notation length := List.length.

Section Auto.
Variable emd : list R -> result (list (list R)).
Variable nexp : R -> R.
Variable len_pow : nat -> R -> R.
Variable polyfit : list R -> list R -> Z -> result (list R).
Variable uspline : list R -> list R -> Z -> R -> result (R -> R).
Variable fit_exp : list R -> list R -> R * R -> result (R * R).
Variable fit_gompertz : list R -> list R -> R * R * R -> result (R * R * R).
Variable fmt3 fmt2 : R -> string.
Variable defaults : list R.
Variable rnd store : R -> R.
Variable hbos : nat -> list R -> result (list bool).
Variables k b : R.
Hypothesis Hk : 0 < k.
Let aff (v : R) := k * v + b.
(** Outlier detection does not depend on unit and origin. *)
Hypothesis Hhbos : forall i l, hbos i (map aff l) = hbos i l.
Hypothesis HLS : LeastSquares polyfit.
Notation fits polys det := (fun l => fit_all emd nexp len_pow polyfit uspline fit_exp fit_gompertz fmt3 fmt2 defaults l polys (SList []) [] false det).
Notation names polys := (get_smoother_names fmt3 defaults polys (SList []) [] false).
Notation iter := (trimiter R (list (@column R))).

Definition SameColumn (c c' : @column R) : Prop :=
  c_name c' = c_name c /\ c_unfolded c' = c_unfolded c /\ c_spacings c' = c_spacings c /\ c_msqe c' = c_msqe c.
Definition SameIter (t t' : iter) : Prop :=
  ti_origs t' = map aff (ti_origs t) /\ ti_eigs t' = map aff (ti_eigs t) /\ ti_id t' = ti_id t /\ ti_clusters t' = ti_clusters t /\
  Forall2 SameColumn (ti_fits t) (ti_fits t').

Lemma aff_inj x y : aff x = aff y -> x = y. Proof. unfold aff. nra. Qed.
Lemma aff_eq x y : neq (aff x) (aff y) = neq x y.
Proof.
  change (neq (aff x) (aff y)) with (if Req_EM_T (aff x) (aff y) then true else false). change (neq x y) with (if Req_EM_T x y then true else false).
  destruct (Req_EM_T (aff x) (aff y)) as [E|E], (Req_EM_T x y) as [E'|E']; auto; [exfalso; now apply E', aff_inj|exfalso; apply E; now rewrite E'].
Qed.
Lemma find_first_aff l v : find_first neq (map aff l) (aff v) = find_first neq l v.
Proof. unfold find_first. generalize 0%Z. induction l as [|x l IH]; intro i; [reflexivity|]. cbn [map find_from]. now rewrite aff_eq, IH. Qed.
Lemma find_last_aff l v : find_last neq (map aff l) (aff v) = find_last neq l v.
Proof.
  unfold find_last. rewrite map_length. generalize (length l). intro n. induction n as [|n IH]; [reflexivity|]. cbn [find_last_loop]. rewrite nth_error_map.
  destruct (nth_error l n); [|reflexivity]. cbn [option_map]. now rewrite aff_eq, IH.
Qed.
Lemma head_map (l : list R) : head_opt (map aff l) = option_map aff (head_opt l).
Proof. unfold head_opt. apply nth_error_map. Qed.
Lemma last_map (l : list R) : last_opt (map aff l) = option_map aff (last_opt l).
Proof. unfold last_opt. rewrite map_length. apply nth_error_map. Qed.

(** ** The fits *)
Lemma poly_column l d det c c' :
  (let! r := fit emd nexp polyfit uspline fit_exp fit_gompertz l (SMember "Polynomial") (DInt d) (AFloat (ndiv (nofZ 14) (nofZ 10))) det true in make_column ("poly_" ++ str_of_int d)%string r) = Ok c ->
  (let! r := fit emd nexp polyfit uspline fit_exp fit_gompertz (map aff l) (SMember "Polynomial") (DInt d) (AFloat (ndiv (nofZ 14) (nofZ 10))) det true in make_column ("poly_" ++ str_of_int d)%string r) = Ok c' ->
  SameColumn c c'.
Proof.
  intros H H'. unfold fit in H, H'. destruct (validate_args (SMember "Polynomial") (DInt d) (AFloat (ndiv (nofZ 14) (nofZ 10)))); [|discriminate]. cbn [bind is_member String.eqb Ascii.eqb Bool.eqb] in H, H'.
  rewrite !fit_steps_R in H, H'. rewrite map_length in H'.
  destruct (polyfit l (Staircase (length l)) d) as [q|] eqn:E1; [|discriminate]. destruct (polyfit (map aff l) (Staircase (length l)) d) as [q'|] eqn:E2; [|discriminate]. cbn [bind] in H, H'.
  assert (EV : map (fun x => polyval x q') (map aff l) = map (fun x => polyval x q) l).
  { rewrite (map_ext (fun x => polyval x q') (PolyAt q')) by (intro; apply polyval_R). rewrite (map_ext (fun x => polyval x q) (PolyAt q)) by (intro; apply polyval_R).
    symmetry. apply (ls_aff polyfit l (length l) d q q' k b HLS); auto. lra. }
  rewrite EV in H'. destruct (maybe_detrend emd det _) as [u|]; [|discriminate]. cbn [bind] in H, H'. unfold make_column in H, H'.
  destruct (np_sub u _); [|discriminate]. cbn [bind] in H, H'. injection H as <-. injection H' as <-. repeat split.
Qed.
Lemma fits_same polys det l cs cs' : fits polys det l = Ok cs -> fits polys det (map aff l) = Ok cs' -> Forall2 SameColumn cs cs'.
Proof.
  unfold fit_all. cbn [list_prod for_each bind]. set (f := fun d : Z => _) at 1. intros H. set (f' := fun d : Z => _) at 1. intros H'.
  assert (K : forall ps ps', for_each f polys = Ok ps -> for_each f' polys = Ok ps' -> Forall2 SameColumn ps ps').
  { clear H H'. induction polys as [|d polys IH]; cbn [for_each]; intros ps ps' H H'.
    - injection H as <-. injection H' as <-. constructor.
    - destruct (f d) as [c|] eqn:E; [|discriminate]. destruct (f' d) as [c'|] eqn:E'; [|discriminate]. cbn [bind] in H, H'.
      destruct (for_each f polys); [|discriminate]. destruct (for_each f' polys); [|discriminate]. cbn [bind] in H, H'. injection H as <-. injection H' as <-. constructor; [|now apply IH].
      unfold f in E. unfold f' in E'. exact (poly_column l d det c c' E E'). }
  destruct (for_each f polys) as [ps|]; [|discriminate]. destruct (for_each f' polys) as [ps'|]; [|discriminate]. cbn [bind] in H, H'. rewrite app_nil_r in H, H'. injection H as <-. injection H' as <-. now apply K.
Qed.

(** ** The trim iterations *)
Lemma new_iter_same polys det id o e t t' :
  new_iter hbos (fits polys det) id o e = Ok t -> new_iter hbos (fits polys det) id (map aff o) (map aff e) = Ok t' -> SameIter t t'.
Proof.
  unfold new_iter. rewrite Hhbos. destruct (hbos id e) as [lab|]; [|discriminate]. cbn [bind]. destruct (outlier_labels lab) as [cl|]; [|discriminate]. cbn [bind]. cbv beta. intros H H'.
  destruct (fit_all _ _ _ _ _ _ _ _ _ _ e _ _ _ _ _) as [cs|] eqn:E in H; [|discriminate]. destruct (fit_all _ _ _ _ _ _ _ _ _ _ (map aff e) _ _ _ _ _) as [cs'|] eqn:E' in H'; [|discriminate].
  cbn [bind] in H, H'. injection H as <-. injection H' as <-. repeat split. exact (fits_same polys det e cs cs' E E').
Qed.
Lemma inliers_same t t' : SameIter t t' -> inliers t' = map aff (inliers t).
Proof.
  intros (_ & He & _ & Hc & _). unfold inliers. rewrite He, Hc. clear He Hc. generalize (ti_clusters t). induction (ti_eigs t) as [|x l IH]; intros [|c cl]; try reflexivity. cbn [map combine filter snd fst].
  destruct (negb c); cbn [map fst]; [f_equal|]; apply IH.
Qed.
Lemma loop_same polys det max_trim n : forall t t' r r', SameIter t t' ->
  trim_loop hbos (fits polys det) n max_trim t = Ok r -> trim_loop hbos (fits polys det) n max_trim t' = Ok r' -> Forall2 SameIter r r'.
Proof.
  induction n as [|n IH]; intros t t' r r' S H H'; cbn [trim_loop] in H, H'; [injection H as <-; injection H' as <-; constructor|].
  unfold next_iter in H, H'. rewrite (inliers_same t t' S) in H'. destruct S as (So & Se & Si & Sc & Sf). rewrite So, Si in H'.
  destruct (new_iter _ _ (Datatypes.S (ti_id t)) (ti_origs t) _) as [u|] eqn:E in H; [|discriminate]. destruct (new_iter _ _ (Datatypes.S (ti_id t)) (map aff (ti_origs t)) _) as [u'|] eqn:E' in H'; [|discriminate].
  cbn [bind] in H, H'. pose proof (new_iter_same polys det _ _ _ _ _ E E') as Su.
  assert (Ep : proportion_removed u' = proportion_removed u) by (destruct Su as (A & B & _); unfold proportion_removed, nlen; now rewrite A, B, !map_length).
  assert (Ea : is_all_inliers u' = is_all_inliers u) by (destruct Su as (_ & _ & _ & C & _); unfold is_all_inliers; now rewrite C).
  rewrite Ep, Ea in H'. destruct (ngt (proportion_removed u) max_trim); [injection H as <-; injection H' as <-; constructor|].
  destruct (is_all_inliers u); [injection H as <-; injection H' as <-; constructor; [exact Su|constructor]|].
  destruct (trim_loop _ _ n max_trim u) as [q|] eqn:F in H; [|discriminate]. destruct (trim_loop _ _ n max_trim u') as [q'|] eqn:F' in H'; [|discriminate]. cbn [bind] in H, H'.
  injection H as <-. injection H' as <-. constructor; [exact Su|]. exact (IH u u' q q' Su F F').
Qed.
Lemma iters_same polys det vals max_trim max_iters its its' :
  trim_iters hbos (fits polys det) vals max_trim max_iters = Ok its -> trim_iters hbos (fits polys det) (map aff vals) max_trim max_iters = Ok its' -> Forall2 SameIter its its'.
Proof.
  assert (Es : np_sort (map aff vals) = map aff (np_sort vals)) by (apply np_sort_affine; exact Hk). unfold trim_iters. rewrite Es. intros H H'.
  destruct (new_iter _ _ 0 (np_sort vals) _) as [t|] eqn:E in H; [|discriminate]. destruct (new_iter _ _ 0 (map _ (np_sort vals)) _) as [t'|] eqn:E' in H'; [|discriminate]. cbn [bind] in H, H'.
  pose proof (new_iter_same polys det _ _ _ _ _ E E') as S.
  destruct (trim_loop _ _ _ max_trim t) as [q|] eqn:F in H; [|discriminate]. destruct (trim_loop _ _ _ max_trim t') as [q'|] eqn:F' in H'; [|discriminate]. cbn [bind] in H, H'.
  injection H as <-. injection H' as <-. constructor; [exact S|]. exact (loop_same polys det max_trim _ t t' q q' S F F').
Qed.

(** ** The summary *)
Lemma cols_named_same name cs cs' : Forall2 SameColumn cs cs' -> Forall2 SameColumn (cols_named name cs) (cols_named name cs').
Proof. induction 1 as [|c c' cs cs' H _ IH]; [constructor|]. unfold cols_named in *. cbn [filter]. destruct H as (A & B). rewrite A. destruct (String.eqb (c_name c) name); auto. constructor; auto. split; auto. Qed.
Lemma fill_same all all' : Forall2 SameColumn all all' -> forall cs cs', Forall2 SameColumn cs cs' -> forall j row, fill_row store all' cs' j row = fill_row store all cs j row.
Proof.
  intros Ha cs cs' H. induction H as [|c c' cs cs' Hc _ IH]; intros j row; [reflexivity|]. cbn [fill_row]. destruct Hc as (A & B & C & D). rewrite A, B.
  destruct (evaluate_unfolding (c_unfolded c)) as [[mean var] score]. destruct (py_set row (4 * j + 3) (store mean)) as [row1|]; [|reflexivity]. cbn [bind].
  destruct (py_set row1 (4 * j + 4) (store var)) as [row2|]; [|reflexivity]. cbn [bind]. pose proof (cols_named_same (c_name c) all all' Ha) as Hn.
  destruct Hn as [|m m' l l' Hm Hn]; [reflexivity|]. destruct Hn as [|x x' l l' Hx Hn]; [|reflexivity]. destruct Hm as (_ & _ & _ & E). rewrite E.
  destruct (py_set row2 (4 * j + 5) _); [|reflexivity]. cbn [bind]. destruct (py_set _ (4 * j + 6) _); [|reflexivity]. cbn [bind]. apply IH.
Qed.
Lemma row_same w t t' : SameIter t t' -> summary_row rnd store w t' = summary_row rnd store w t.
Proof.
  intros (A & B & _ & _ & F). unfold summary_row, percent_removed, lower_percent_removed, upper_percent_removed, nlen. rewrite A, B, !map_length, !py_get_0, !py_get_m1, head_map, last_map.
  destruct (py_set _ 0 _) as [r1|]; [|reflexivity]. cbn [bind]. destruct (head_opt (ti_eigs t)) as [a|]; [|reflexivity]. cbn [option_map bind]. rewrite find_first_aff.
  destruct (py_set r1 1 _) as [r2|]; [|reflexivity]. cbn [bind]. destruct (last_opt (ti_eigs t)) as [z|]; [|reflexivity]. cbn [option_map bind]. rewrite find_last_aff.
  destruct (py_set r2 2 _) as [r3|]; [|reflexivity]. cbn [bind]. now apply fill_same.
Qed.
Lemma summary_same ns its its' : Forall2 SameIter its its' -> summary rnd store ns its' = summary rnd store ns its.
Proof.
  intros H. unfold summary. assert (E : for_each (summary_row rnd store (length ns)) its' = for_each (summary_row rnd store (length ns)) its).
  { induction H as [|t t' its its' S _ IH]; [reflexivity|]. cbn [for_each]. now rewrite (row_same _ t t' S), IH. }
  assert (I : map ti_id its' = map ti_id its) by (clear E; induction H as [|t t' its its' S _ IH]; [reflexivity|]; cbn [map]; destruct S as (_ & _ & Si & _); now rewrite Si, IH).
  rewrite E, I. reflexivity.
Qed.
Lemma nth_iter its its' : Forall2 SameIter its its' -> forall i, match nth_error its i, nth_error its' i with Some t, Some t' => SameIter t t' | None, None => True | _, _ => False end.
Proof. induction 1 as [|t t' its its' S H IH]; intros [|i]; cbn [nth_error]; auto. apply IH. Qed.
Lemma auto_same f its its' o u o' u' : Forall2 SameIter its its' -> autounfold_vals f its = Ok (o, u) -> autounfold_vals f its' = Ok (o', u') -> o' = map aff o /\ u' = u.
Proof.
  intros S. unfold autounfold_vals. destruct (select_column _) as [c|]; [|discriminate]. cbn [bind]. destruct (nth_error (df_filter "score" (f_cols f)) c) as [[label col0]|]; [|discriminate].
  destruct (df_filter label (f_cols f)) as [|[n0 col] [|]]; try discriminate. destruct (argmin _) as [[r x]|]; [|discriminate]. destruct (nth_error (f_index f) r) as [id|]; [|discriminate].
  pose proof (nth_iter its its' S id) as N. destruct (nth_error its id) as [t|]; [|discriminate]. destruct (nth_error its' id) as [t'|]; [|contradiction]. destruct N as (_ & A & _ & _ & B).
  pose proof (cols_named_same (str_remove "--score" label) _ _ B) as C. destruct C as [|m m' l l' Hm _]; [discriminate|]. intros H H'. injection H as <- <-. injection H' as <- <-. split; [exact A|apply Hm].
Qed.

(** C133. A trim report of the rescaled and shifted eigenvalues has the same iterations (numbers, outlier labels, positions in the spectrum), the same
    unfolded values and the same summary table; only the trimmed eigenvalues are rescaled. *)
Theorem C133_report : forall polys det vals max_trim max_iters its its',
  trim_iters hbos (fits polys det) vals max_trim max_iters = Ok its -> trim_iters hbos (fits polys det) (map aff vals) max_trim max_iters = Ok its' ->
  map (@ti_eigs R (list column)) its' = map (fun t => map aff (ti_eigs t)) its /\ map ti_clusters its' = map ti_clusters its /\ map trim_indices its' = map trim_indices its /\
  map (fun t => map c_unfolded (ti_fits t)) its' = map (fun t => map c_unfolded (ti_fits t)) its /\ summary rnd store (names polys) its' = summary rnd store (names polys) its.
Proof.
  intros polys det vals max_trim max_iters its its' H H'. pose proof (iters_same _ _ _ _ _ _ _ H H') as S. splits; [| | | |now apply summary_same].
  - clear - S. induction S as [|t t' its its' (A & B & C & D & E) _ IH]; [reflexivity|]. cbn [map]. now rewrite B, IH.
  - clear - S. induction S as [|t t' its its' (A & B & C & D & E) _ IH]; [reflexivity|]. cbn [map]. now rewrite D, IH.
  - clear - S Hk. induction S as [|t t' its its' (A & B & C & D & E) _ IH]; [reflexivity|]. cbn [map]. rewrite IH. f_equal. unfold trim_indices. rewrite A, B, !py_get_0, !py_get_m1, head_map, last_map.
    destruct (head_opt (ti_eigs t)), (last_opt (ti_eigs t)); cbn [option_map]; auto. now rewrite find_first_aff, find_last_aff.
  - clear - S. induction S as [|t t' its its' (A & B & C & D & E) _ IH]; [reflexivity|]. cbn [map]. rewrite IH. f_equal. clear - E. induction E as [|c c' cs cs' (P & Q & _) _ IH]; [reflexivity|]. cbn [map]. now rewrite Q, IH.
Qed.
(** C133. Automatic trimming and unfolding of the rescaled and shifted eigenvalues gives the same unfolded values. *)
Theorem C133_auto : forall polys det vals max_trim max_iters r r',
  trim_unfold_auto rnd store hbos (fits polys det) (names polys) vals max_trim max_iters = Ok r ->
  trim_unfold_auto rnd store hbos (fits polys det) (names polys) (map aff vals) max_trim max_iters = Ok r' ->
  u_values r' = u_values r /\ u_originals r' = map aff (u_originals r).
Proof.
  intros polys det vals max_trim max_iters r r' H H'. unfold trim_unfold_auto in H, H'.
  destruct (trim_iters _ _ vals _ _) as [its|] eqn:E in H; [|discriminate]. destruct (trim_iters _ _ (map aff vals) _ _) as [its'|] eqn:E' in H'; [|discriminate]. cbn [bind] in H, H'.
  pose proof (iters_same _ _ _ _ _ _ _ E E') as S. rewrite (summary_same (names polys) _ _ S) in H'. destruct (summary rnd store (names polys) its) as [f|]; [|discriminate]. cbn [bind] in H, H'.
  destruct (autounfold_vals f its) as [[o u]|] eqn:A in H; [|discriminate]. destruct (autounfold_vals f its') as [[o' u']|] eqn:A' in H'; [|discriminate]. cbn [bind] in H, H'. injection H as <-. injection H' as <-.
  destruct (auto_same f its its' o u o' u' S A A') as (-> & ->). cbn [u_values u_originals unfolded_init]. split; [reflexivity|]. unfold aff. now apply np_sort_affine.
Qed.
End Auto.
Print Assumptions C133_report.
Print Assumptions C133_auto.

(** Five levels at 0, 1, 2, 3, 5 and the same levels doubled and moved by one: both are unfolded by the least squares cubic, with the same result. *)
Definition all_inliers (_ : nat) (l : list R) : result (list bool) := Ok (repeat false (length l)).
Definition no_text (_ : R) : string := format_fixed 3 (QArith_base.Qmake 0 1).
Notation cubic_fits := (fun l => fit_all (fun _ => Raise ValueError) exp (fun _ x => x) cubic_table (fun _ _ _ _ => Raise ValueError) (fun _ _ _ => Raise ValueError)
  (fun _ _ _ => Raise ValueError) no_text no_text [] l [3%Z] (SList []) [] false false).
Notation cubic_auto vals := (trim_unfold_auto (fun x => x) (fun x => x) all_inliers cubic_fits (get_smoother_names no_text [] [3%Z] (SList []) [] false) vals (1 / 2) 0).
Lemma cubic_iters eigs s c : np_sort eigs = s -> length s = 5%nat -> cubic_table s (Staircase 5) 3 = Ok c ->
  exists cl col, trim_iters all_inliers cubic_fits eigs (1 / 2) 0 = Ok [mkiter s s 0 cl [col]] /\ c_unfolded col = np_sort (map (PolyAt c) s).
Proof.
  intros Hs Hl Hc. unfold trim_iters. rewrite Hs. unfold new_iter, all_inliers. rewrite Hl. cbn [bind]. change (outlier_labels (repeat false 5)) with (Ok (repeat false 5)). cbn [bind].
  unfold fit_all. cbn [for_each list_prod bind]. unfold M_Smooth.fit. rewrite fit_steps_R, Hl.
  cbn [validate_args smoother_enum_arg validate bind String.eqb Ascii.eqb Bool.eqb is_member Z.ltb Z.compare Pos.compare Pos.compare_cont maybe_detrend].
  rewrite Hc. cbn [bind]. unfold make_column, np_sub. rewrite map_length, Hl, Staircase_length. cbn [Nat.eqb bind app Z.to_nat trim_loop]. eexists. eexists. split; [reflexivity|].
  cbn [c_unfolded]. f_equal. apply map_ext. intro x. apply polyval_R.
Qed.
Lemma cubic_runs eigs s c : np_sort eigs = s -> length s = 5%nat -> cubic_table s (Staircase 5) 3 = Ok c ->
  exists r, cubic_auto eigs = Ok r /\ u_originals r = s /\ u_values r = np_sort (map (PolyAt c) s).
Proof.
  intros Hs Hl Hc. destruct (cubic_iters eigs s c Hs Hl Hc) as (cl & col & Hi & Hu).
  destruct (C75_auto_selects (fun _ x => x) (fun _ => Raise ValueError) exp cubic_table (fun _ _ _ _ => Raise ValueError) (fun _ _ _ => Raise ValueError) (fun _ _ _ => Raise ValueError)
    no_text no_text [] (fun x => x) (fun x => x) all_inliers ltac:(intros id l lab [= <-]; apply repeat_length) [3%Z] [] [] false false eigs (1 / 2) 0%Z [mkiter s s 0 cl [col]])
    as (row & j & t & q & Ht & Hq & Ha & _).
  - intro x. apply format_fixed_decimals.
  - cbn. repeat constructor. intros [].
  - discriminate.
  - exact Hi.
  - destruct row as [|row]; [|destruct row; discriminate]. injection Ht as <-. destruct j as [|j]; [|destruct j; discriminate]. injection Hq as <-. eexists. split; [exact Ha|]. cbn. now split.
Qed.
Example C133_case : exists r r', cubic_auto [3; 0; 5; 1; 2] = Ok r /\ cubic_auto (map (fun v => 2 * v + 1) [3; 0; 5; 1; 2]) = Ok r' /\
  u_originals r = [0; 1; 2; 3; 5] /\ u_originals r' = map (fun v => 2 * v + 1) [0; 1; 2; 3; 5] /\ u_values r = us0 /\ u_values r' = us0.
Proof.
  assert (T0 : cubic_table xs0 (Staircase 5) 3 = Ok cs0).
  { unfold cubic_table. cbn [Z.eqb Pos.eqb]. destruct (list_eq_dec Req_EM_T (Staircase 5) _); [|congruence]. destruct (list_eq_dec Req_EM_T xs0 xs0); [reflexivity|congruence]. }
  assert (T1 : cubic_table xs1 (Staircase 5) 3 = Ok cs1).
  { unfold cubic_table. cbn [Z.eqb Pos.eqb]. destruct (list_eq_dec Req_EM_T (Staircase 5) _); [|congruence].
    destruct (list_eq_dec Req_EM_T xs1 xs0) as [E|]; [injection E; intros; lra|]. destruct (list_eq_dec Req_EM_T xs1 xs1); [reflexivity|congruence]. }
  assert (S0 : np_sort [3; 0; 5; 1; 2] = xs0) by (unfold xs0; sort_R).
  assert (S1 : np_sort (map (fun v => 2 * v + 1) [3; 0; 5; 1; 2]) = xs1).
  { replace (map _ _) with [7; 1; 11; 3; 5] by (cbn [map]; list_R). unfold xs1. sort_R. }
  assert (U : np_sort us0 = us0) by (unfold us0; sort_R).
  destruct (cubic_runs _ _ _ S0 eq_refl T0) as (r & H & Ho & Hu). destruct (cubic_runs _ _ _ S1 eq_refl T1) as (r' & H' & _ & _). exists r, r'.
  assert (V : u_values r = us0). { rewrite Hu. rewrite <- U. f_equal. unfold xs0, us0, cs0. cbn [map]. rewrite !PolyAt_horner. cbn [horner]. list_R. }
  destruct (C133_auto (fun _ => Raise ValueError) exp (fun _ x => x) cubic_table (fun _ _ _ _ => Raise ValueError) (fun _ _ _ => Raise ValueError) (fun _ _ _ => Raise ValueError)
    no_text no_text [] (fun x => x) (fun x => x) all_inliers 2 1 ltac:(lra) ltac:(intros i l; unfold all_inliers; now rewrite map_length) cubic_table_ls [3%Z] false [3; 0; 5; 1; 2] (1 / 2) 0%Z r r' H H') as (A & B).
  splits; auto; [now rewrite B, Ho|congruence].
Qed.
