(** Property C156: the columns computed by [Smoother.fit_all]. *)
From Coq Require Import String List ZArith Bool Arith Lia Reals Lra Sorting.Sorted Sorting.Permutation.
From Verif Require Import Base S_Order S_EigVals S_Trim M_Enum M_Trim M_Smooth S_Smooth S_Fit P_Order P_Step P_EigVals P_TrimStat P_Smooth P_Fit P_Loops P_Draw T_Fit.
Import ListNotations.
Local Open Scope R_scope.
Local Notation length := List.length.

(** The column of one fitted curve: its values at the eigenvalues in ascending order, the differences of these, the mean squared distance of the curve from the
    points (e_i, i), and a function that evaluates the curve anywhere. *)
Definition ColumnOf (eigs : list R) (name : string) (curve : R -> R) (c : @column R) : Prop :=
  c_name c = name /\ Permutation (map curve eigs) (c_unfolded c) /\ Ascending (c_unfolded c) /\ c_spacings c = Gaps (c_unfolded c) /\
  c_msqe c = Sse curve eigs (Staircase (length eigs)) / INR (length eigs) /\
  exists f, c_closure c = CFun1 f /\ forall x, f x = Ok (Some (map curve x)).
(** The number of the degree in a spline's name. *)
Definition DegreeName (d : Z) : string :=
  if Z.eq_dec d 3 then "cubic" else if Z.eq_dec d 4 then "quartic" else if Z.eq_dec d 5 then "quintic" else "deg" ++ str_of_int d.

Section All.
Variable emd : list R -> result (list (list R)).
Variable len_pow : nat -> R -> R.
Variable polyfit : list R -> list R -> Z -> result (list R).
Variable uspline : list R -> list R -> Z -> R -> result (R -> R).
Variable fit_exp : list R -> list R -> R * R -> result (R * R).
Variable fit_gompertz : list R -> list R -> R * R * R -> result (R * R * R).
Variable fmt3 fmt2 : R -> string.
Variable defaults : list R.
Notation fit := (fit emd exp polyfit uspline fit_exp fit_gompertz).
Notation fit_all := (fit_all emd exp len_pow polyfit uspline fit_exp fit_gompertz fmt3 fmt2 defaults).

(** A polynomial column, a spline column (its smoothing parameter and its label), a Gompertz column. *)
Definition PolyColumn eigs (d : Z) (c : @column R) : Prop := (3 <= d)%Z /\
  exists coef, polyfit eigs (Staircase (length eigs)) d = Ok coef /\ ColumnOf eigs ("poly_" ++ str_of_int d) (PolyAt coef) c.
Definition SplineColumn eigs (par : R -> R) (label : R -> string) (p : R * Z) (c : @column R) : Prop := (snd p <= 5)%Z /\
  exists f, uspline eigs (Staircase (length eigs)) (snd p) (par (fst p)) = Ok f /\ ColumnOf eigs (DegreeName (snd p) ++ "-spline_" ++ label (fst p)) f c.
Definition GompertzColumn eigs (c : @column R) : Prop := eigs <> [] /\
  exists a b k, fit_gompertz eigs (Staircase (length eigs)) (INR (length eigs), 1, 1) = Ok (a, b, k) /\
    ColumnOf eigs "gompertz" (fun x => a * exp (- b * exp (- k * x))) c.

Lemma degree_name d : spline_name d = DegreeName d.
Proof.
  unfold spline_name, DegreeName. destruct (Z.eqb_spec d 3), (Z.eq_dec d 3); try contradiction; auto.
  destruct (Z.eqb_spec d 4), (Z.eq_dec d 4); try contradiction; auto. destruct (Z.eqb_spec d 5), (Z.eq_dec d 5); try contradiction; auto.
Qed.
Lemma column_of eigs name curve f c : (forall x, f x = Ok (Some (map curve x))) ->
  make_column name (map curve eigs, Staircase (length eigs), CFun1 f) = Ok c -> ColumnOf eigs name curve c.
Proof.
  intros Hf H. unfold make_column, np_sub in H. rewrite map_length, Staircase_length, Nat.eqb_refl in H. cbn [bind] in H. injection H as <-. unfold ColumnOf.
  cbn [c_name c_unfolded c_spacings c_msqe c_closure]. splits.
  - reflexivity.
  - apply sort_perm.
  - apply sort_asc.
  - apply ndiff_Gaps.
  - apply msqe_Sse. now rewrite Staircase_length.
  - exists f. auto.
Qed.
Lemma column_exists (eigs : list R) name (curve : R -> R) (f : list R -> result (option (list R))) : exists c, make_column name (map curve eigs, Staircase (length eigs), CFun1 f) = Ok c.
Proof. unfold make_column, np_sub. rewrite map_length, Staircase_length, Nat.eqb_refl. cbn [bind]. eauto. Qed.

(** The three fits, as equations. *)
Lemma fit_poly eigs d ss : fit eigs (SMember "Polynomial") (DInt d) ss false true =
  if (d <? 3)%Z then Raise ValueError else
  let! c := polyfit eigs (Staircase (length eigs)) d in
  Ok (map (fun x => polyval x c) eigs, Staircase (length eigs), CFun1 (fun x => Ok (Some (map (fun v => polyval v c) x)))).
Proof.
  unfold M_Smooth.fit. rewrite fit_steps_R. cbn [is_member String.eqb Ascii.eqb Bool.eqb maybe_detrend bind validate_args smoother_enum_arg validate].
  destruct (d <? 3)%Z; [reflexivity|]. cbn [bind]. destruct (polyfit _ _ _); reflexivity.
Qed.
Lemma fit_spline eigs d s : fit eigs (SMember "Spline") (DInt d) (AFloat s) false true =
  if (5 <? d)%Z then Raise ValueError else
  let! f := uspline eigs (Staircase (length eigs)) d s in
  Ok (map f eigs, Staircase (length eigs), CFun1 (fun x => Ok (Some (map f x)))).
Proof.
  unfold M_Smooth.fit. rewrite fit_steps_R. cbn [is_member String.eqb Ascii.eqb Bool.eqb maybe_detrend bind validate_args smoother_enum_arg validate].
  destruct (5 <? d)%Z; [reflexivity|]. cbn [bind]. destruct (uspline _ _ _ _); reflexivity.
Qed.
Lemma fit_gomp eigs d ss : fit eigs (SMember "Gompertz") d ss false true =
  match eigs with [] => Raise IndexError | _ =>
  let! p := fit_gompertz eigs (Staircase (length eigs)) (INR (length eigs), 1, 1) in
  let '(a, b, c) := p in
  Ok (map (fun x => gompertz_f exp x a b c) eigs, Staircase (length eigs), CFun1 (fun x => Ok (Some (map (fun v => gompertz_f exp v a b c) x)))) end.
Proof.
  unfold M_Smooth.fit. rewrite fit_steps_R. cbn [is_member String.eqb Ascii.eqb Bool.eqb maybe_detrend bind validate_args smoother_enum_arg validate].
  destruct eigs as [|e t]; [reflexivity|].
  unfold last_opt. rewrite Staircase_length, Staircase_nth by (cbn; lia). replace (length (e :: t) - 1 + 1)%nat with (length (e :: t)) by (cbn; lia).
  destruct (fit_gompertz _ _ _) as [[[a b] c]|]; reflexivity.
Qed.
Lemma for_each_rel {A B} (f : A -> result B) (P : A -> B -> Prop) : (forall a b, f a = Ok b -> P a b) -> forall l ys, for_each f l = Ok ys -> Forall2 P l ys.
Proof.
  intros H. induction l as [|a l IH]; intros ys E; cbn [for_each] in E; [injection E as <-; constructor|].
  destruct (f a) as [b|] eqn:Ea; [|discriminate]. cbn [bind] in E. destruct (for_each f l) as [bs|]; [|discriminate]. injection E as <-. constructor; auto.
Qed.
Lemma for_each_total {A B} (f : A -> result B) : forall l, (forall a, In a l -> exists b, f a = Ok b) -> exists ys, for_each f l = Ok ys.
Proof.
  induction l as [|a l IH]; intros H; cbn [for_each]; [eauto|]. destruct (H a (or_introl eq_refl)) as [b ->]. cbn [bind].
  destruct IH as [ys ->]; [intros; apply H; now right|]. cbn [bind]. eauto.
Qed.

Lemma column_ext eigs name f g c : (forall x, f x = g x) -> ColumnOf eigs name f c -> ColumnOf eigs name g c.
Proof.
  intros E (H1 & H2 & H3 & H4 & H5 & k & H6 & H7). unfold ColumnOf. splits; auto.
  - now rewrite <- (map_ext f g E).
  - rewrite H5. f_equal. apply Sse_ext. exact E.
  - exists k. split; [exact H6|]. intro x. now rewrite H7, (map_ext f g E).
Qed.
Lemma gompertz_R x a b c : gompertz_f exp x a b c = a * exp (- b * exp (- c * x)).
Proof. reflexivity. Qed.

Lemma poly_column eigs d ss name c : (let! r := fit eigs (SMember "Polynomial") (DInt d) ss false true in make_column name r) = Ok c ->
  name = ("poly_" ++ str_of_int d)%string -> PolyColumn eigs d c.
Proof.
  intros H ->. rewrite fit_poly in H. destruct (d <? 3)%Z eqn:E; [discriminate|]. apply Z.ltb_ge in E. split; [exact E|].
  destruct (polyfit _ _ _) as [coef|]; [|discriminate]. cbn [bind] in H. exists coef. split; [reflexivity|].
  eapply column_ext; [|eapply column_of; [|exact H]]; [intro x; apply polyval_R|reflexivity].
Qed.
Lemma spline_column eigs par label p c :
  (let! r := fit eigs (SMember "Spline") (DInt (snd p)) (AFloat (par (fst p))) false true in make_column (spline_name (snd p) ++ "-spline_" ++ label (fst p))%string r) = Ok c ->
  SplineColumn eigs par label p c.
Proof.
  intros H. rewrite fit_spline, degree_name in H. destruct (5 <? snd p)%Z eqn:E; [discriminate|]. apply Z.ltb_ge in E. split; [exact E|].
  destruct (uspline _ _ _ _) as [f|]; [|discriminate]. cbn [bind] in H. exists f. split; [reflexivity|]. eapply column_of; [|exact H]. reflexivity.
Qed.

(** C156. Without detrending, the columns are one per polynomial degree, one per pair of smoothing factor and spline degree, and one Gompertz column when asked; each
    is the column of the curve its routine returned for the points (e_i, i).  The "heuristic" smoothing parameters are n^s for the default factors s. *)
Theorem C156_columns : forall eigs polys smooths degs gomp cols, fit_all eigs polys smooths degs gomp false = Ok cols ->
  exists ps ss gs, cols = ps ++ ss ++ gs /\ Forall2 (PolyColumn eigs) polys ps /\
    match smooths with
    | SList l => Forall2 (SplineColumn eigs (fun s => s) fmt3) (list_prod l degs) ss
    | SHeuristic => Forall2 (SplineColumn eigs (len_pow (length eigs)) (fun s => fmt2 s ++ "_heuristic")%string) (list_prod defaults degs) ss
    end /\ (if gomp then exists c, gs = [c] /\ GompertzColumn eigs c else gs = []).
Proof.
  intros eigs polys smooths degs gomp cols H. unfold M_Smooth.fit_all in H.
  destruct (for_each _ polys) as [ps|] eqn:E1; [|discriminate]. cbn [bind] in H.
  match type of H with bind ?e _ = _ => destruct e as [ss|] eqn:E2; [|discriminate] end. cbn [bind] in H.
  destruct (if gomp then _ else _) as [gs|] eqn:E3; [|discriminate]. cbn [bind] in H. injection H as <-.
  exists ps, ss, gs. splits.
  - reflexivity.
  - eapply for_each_rel; [|exact E1]. intros d c Hc. eapply poly_column; [exact Hc|reflexivity].
  - destruct smooths; (eapply for_each_rel; [|exact E2]); intros [s d] c Hc; apply spline_column; exact Hc.
  - destruct gomp; [|now injection E3 as <-]. rewrite fit_gomp in E3. destruct eigs as [|e t]; [discriminate|]. set (eigs := e :: t) in *.
    destruct (fit_gompertz _ _ _) as [[[a b] k]|] eqn:Eg; [|discriminate]. cbn [bind] in E3.
    destruct (make_column _ _) as [c|] eqn:Ec; [|discriminate]. cbn [bind] in E3. injection E3 as <-. exists c. split; [reflexivity|]. split; [discriminate|].
    exists a, b, k. split; [exact Eg|]. eapply column_of; [|exact Ec]. reflexivity.
Qed.
Print Assumptions C156_columns.

(** When the columns exist: polynomial degrees of at least 3, spline degrees of at most 5 (only looked at when there is a smoothing factor), at least one eigenvalue
    for the Gompertz curve, and routines that return. *)
Theorem C156_succeeds : forall eigs polys l degs gomp,
  (forall d, In d polys -> exists c, polyfit eigs (Staircase (length eigs)) d = Ok c) ->
  (forall s d, In s l -> In d degs -> exists f, uspline eigs (Staircase (length eigs)) d s = Ok f) ->
  (exists p, fit_gompertz eigs (Staircase (length eigs)) (INR (length eigs), 1, 1) = Ok p) ->
  ((exists cols, fit_all eigs polys (SList l) degs gomp false = Ok cols) <->
   (forall d, In d polys -> (3 <= d)%Z) /\ (l <> [] -> forall d, In d degs -> (d <= 5)%Z) /\ (gomp = true -> eigs <> [])).
Proof.
  intros eigs polys l degs gomp HP HS HG. split.
  - intros [cols H]. destruct (C156_columns _ _ _ _ _ _ H) as (ps & ss & gs & _ & H1 & H2 & H3). splits.
    + intros d Hd. clear -H1 Hd. induction H1; [contradiction|]. destruct Hd as [<-|Hd]; [apply H|auto].
    + intros Hl d Hd. destruct l as [|s l]; [contradiction|]. assert (In (s, d) (list_prod (s :: l) degs)) as Hin by (apply in_prod; [now left|exact Hd]).
      clear -H2 Hin. induction H2; [contradiction|]. destruct Hin as [->|Hin]; [apply H|auto].
    + intros ->. destruct H3 as (c & _ & H3 & _). exact H3.
  - intros (G1 & G2 & G3). unfold M_Smooth.fit_all.
    match goal with |- context [for_each ?g polys] => destruct (for_each_total g polys) as [ps ->] end.
    { intros d Hd. rewrite fit_poly. destruct (d <? 3)%Z eqn:E; [apply Z.ltb_lt in E; specialize (G1 d Hd); lia|].
      destruct (HP d Hd) as [c ->]. cbn [bind]. apply column_exists. }
    cbn [bind]. match goal with |- context [for_each ?g (list_prod l degs)] => destruct (for_each_total g (list_prod l degs)) as [ss ->] end.
    { intros [s d] Hd. apply in_prod_iff in Hd as [Hs Hd]. rewrite fit_spline.
      destruct (5 <? d)%Z eqn:E; [apply Z.ltb_lt in E; assert (l <> []) as Hl by (destruct l; [contradiction|discriminate]); specialize (G2 Hl d Hd); lia|].
      destruct (HS s d Hs Hd) as [f ->]. cbn [bind]. apply column_exists. }
    cbn [bind]. destruct gomp; [|cbn [bind]; eauto]. rewrite fit_gomp. destruct eigs as [|e t]; [now specialize (G3 eq_refl)|].
    destruct HG as [[[a b] k] ->]. cbn [bind]. match goal with |- context [make_column ?nm (map ?g _, _, CFun1 ?f)] => destruct (column_exists (e :: t) nm g f) as [c ->] end. cbn [bind]. eauto.
Qed.
Print Assumptions C156_succeeds.
End All.

Lemma ascending3 (a b c : R) : a <= b -> b <= c -> Ascending [a; b; c].
Proof.
  intros H1 H2. unfold Ascending. repeat first [apply SSorted_cons | apply SSorted_nil | apply Forall_cons | apply Forall_nil]; apply nle_R_true; lra.
Qed.
(** Three values, the curve 4 - x as "polynomial": the fitted values come out in descending order and are sorted before the spacings are taken; the mean squared error
    compares the curve 4 - x with 1, 2, 3 position by position. *)
Example C156_case : exists c, fit_all (fun _ => Raise ValueError) exp (fun _ x => x) (fun _ _ _ => Ok [4; -1]) (fun _ _ _ _ => Raise ValueError)
    (fun _ _ _ => Raise ValueError) (fun _ _ _ => Raise ValueError) (fun _ => ""%string) (fun _ => ""%string) [] [0; 1; 3] [3]%Z (SList []) [9]%Z false false = Ok [c] /\
  c_unfolded c = [1; 3; 4] /\ c_spacings c = [2; 1] /\ c_msqe c = 14 / 3.
Proof.
  destruct (proj2 (C156_succeeds (fun _ => Raise ValueError) (fun _ x => x) (fun _ _ _ => Ok [4; -1]) (fun _ _ _ _ => Raise ValueError)
    (fun _ _ _ => Raise ValueError) (fun _ _ _ => Ok (1, 1, 1)) (fun _ => ""%string) (fun _ => ""%string) [] [0; 1; 3] [3]%Z [] [9]%Z false
    ltac:(eauto) ltac:(intros ? ? []) ltac:(eauto)) ltac:(splits; [intros ? [<-|[]]; lia|congruence|discriminate])) as [cols H].
  destruct (C156_columns _ _ _ _ _ _ _ _ _ _ _ _ _ _ _ H) as (ps & ss & gs & -> & H1 & H2 & ->).
  inversion H2; subst. inversion H1 as [|d c ? ? (_ & coef & [= <-] & C1 & C2 & C3 & C4 & C5 & _) H1']; subst. inversion H1'; subst. exists c.
  assert (c_unfolded c = [1; 3; 4]) as E.
  { assert (np_sort (map (PolyAt [4; -1]) [0; 1; 3]) = [1; 3; 4]) as <-.
    { replace (map (PolyAt [4; -1]) [0; 1; 3]) with [4; 3; 1]; [|cbn [map]; unfold PolyAt; cbn; repeat f_equal; lra].
      apply sort_eq; [exact (Permutation_rev [4; 3; 1])|]. apply ascending3; lra. }
    symmetry. apply sort_eq; assumption. }
  splits.
  - exact H.
  - exact E.
  - rewrite C4, E. cbn [Gaps]. repeat f_equal; lra.
  - rewrite C5. unfold Staircase, PolyAt. cbn. field.
Qed.
