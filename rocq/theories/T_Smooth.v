(** Properties C28-C31, C33, C34: smoothing, unfolding and EMD detrending of unfolded values. *)
From Coq Require Import String List ZArith Bool Arith Lia Reals Lra QArith Sorting.Sorted Sorting.Permutation.
From Verif Require Import Base S_Order S_EigVals M_Enum M_Analytic M_Trim M_Smooth S_Smooth P_Order P_Step P_EigVals P_Trim P_Smooth.
Import ListNotations.
Local Open Scope Z_scope.
Local Notation length := List.length.

(** Oracles for the examples, over exact rationals: a polynomial fit with given coefficients, a spline that halves, curve
    fits with fixed parameters, and a decomposition with trend zero. *)
Definition ex_poly (c : list Q) : list Q -> list Q -> Z -> result (list Q) := fun _ _ _ => Ok c.
Definition ex_spline : list Q -> list Q -> Z -> Q -> result (Q -> Q) := fun _ _ _ s => Ok (fun x => nmul x s).
Definition ex_exp : list Q -> list Q -> Q * Q -> result (Q * Q) := fun _ _ p => Ok p.
Definition ex_gomp : list Q -> list Q -> Q * Q * Q -> result (Q * Q * Q) := fun _ _ p => Ok p.
Definition ex_emd : list Q -> result (list (list Q)) := fun s => Ok [s; map (fun _ => 0%Q) s].
Definition ex_nexp (x : Q) : Q := nadd 1%Q x.

Section C28.
Context {F : Type} {N : Num F} {OL : OrdLaws F N}.
Variable emd : list F -> result (list (list F)).
Variable nexp : F -> F.
Variable polyfit : list F -> list F -> Z -> result (list F).
Variable uspline : list F -> list F -> Z -> F -> result (F -> F).
Variable fit_exp : list F -> list F -> F * F -> result (F * F).
Variable fit_gompertz : list F -> list F -> F * F * F -> result (F * F * F).
Variable smooth_g smooth_p : nat -> F -> F.

(** C28. Whatever the fitting routines and the decomposition answer, an [Eigenvalues.unfold] that returns gives one value per
    eigenvalue, ascending (NaNs last), and keeps the eigenvalues. *)
Theorem C28_unfold_sorted : forall eigs kind smoother degree ss detrend u,
  (forall a, smoother = Some a -> ProperArg a) ->
  eig_unfold emd nexp polyfit uspline fit_exp fit_gompertz smooth_g smooth_p eigs kind smoother degree ss detrend = Ok u ->
  length (u_values u) = length eigs /\ AscendingNaNLast (u_values u) /\
  Permutation eigs (u_originals u) /\ AscendingNaNLast (u_originals u).
Proof.
  intros eigs kind sm d ss det u Hp H. apply eig_unfold_shape in H; [|exact Hp]. destruct H as (H1 & H2 & l & H3).
  rewrite H2, H3. splits; [now rewrite <- H3 | apply np_sort_spec | apply np_sort_spec | apply np_sort_spec].
Qed.

(** C28. The default smoother: the semicircle for GOE, the exponential law for Poisson (the same member as GDE), a polynomial
    for every other kind. *)
Theorem C28_default_smoother : forall eigs kind degree ss detrend,
  let unf k s := eig_unfold emd nexp polyfit uspline fit_exp fit_gompertz smooth_g smooth_p eigs k s degree ss detrend in
  (member MatrixKind "GOE" = Some kind -> unf (Some (PMember kind)) None = unf None (Some (SName "goe"))) /\
  (member MatrixKind "Poisson" = Some kind \/ member MatrixKind "GDE" = Some kind ->
     unf (Some (PMember kind)) None = unf None (Some (SName "poisson"))) /\
  (member MatrixKind "GUE" = Some kind \/ member MatrixKind "Uniform" = Some kind ->
     unf (Some (PMember kind)) None = unf None (Some (SName "poly"))) /\
  unf None None = unf None (Some (SName "poly")).
Proof.
  intros eigs kind d ss det unf. subst unf. splits.
  - intros [= <-]. reflexivity.
  - intros [[= <-]|[= <-]]; reflexivity.
  - intros [[= <-]|[= <-]]; reflexivity.
  - reflexivity.
Qed.

(** C28. [Trimmed.unfold] hands out the smoothed values in the order of the ascending eigenvalues, unsorted. *)
Theorem C28_trimmed_keeps_order : forall eigs degree ss u,
  trimmed_unfold emd nexp polyfit uspline fit_exp fit_gompertz eigs (SMember "Polynomial") degree ss false = Ok u ->
  exists d coef, degree = DInt d /\ polyfit (u_originals u) (fit_steps (u_originals u)) d = Ok coef /\
    u_values u = map (fun x => polyval x coef) (u_originals u) /\ Permutation eigs (u_originals u).
Proof.
  intros eigs degree ss u. unfold trimmed_unfold, fit.
  destruct (validate_args _ _ _) as [[]|]; [|discriminate]. cbn [bind is_member String.eqb Ascii.eqb Bool.eqb].
  destruct degree as [d| |]; try discriminate.
  destruct (polyfit _ _ _) as [coef|] eqn:E; [|discriminate]. cbn [bind maybe_detrend]. intros [= <-].
  exists d, coef. cbn [u_originals u_values unfolded_init]. splits; auto. apply np_sort_perm.
Qed.
End C28.
Print Assumptions C28_unfold_sorted.
Print Assumptions C28_default_smoother.
Print Assumptions C28_trimmed_keeps_order.
(** A decreasing fit 10 - x: [Eigenvalues.unfold] sorts, [Trimmed.unfold] does not. *)
Example C28_case :
  let poly := ex_poly [10; -1]%Q in
  (let! u := eig_unfold ex_emd ex_nexp poly ex_spline ex_exp ex_gomp (fun _ x => x) (fun _ x => x)
      [3; 1; 2]%Q None None (DInt 7) (AFloat (7#5)%Q) false in Ok (u_values u, u_originals u))
    = Ok ([7; 8; 9], [1; 2; 3])%Q /\
  (let! u := trimmed_unfold ex_emd ex_nexp poly ex_spline ex_exp ex_gomp [3; 1; 2]%Q (SMember "Polynomial") (DInt 7) (AFloat (7#5)%Q) false in
     Ok (u_values u)) = Ok [9; 8; 7]%Q.
Proof. split; vm_compute; reflexivity. Qed.
(** For the reals the analytic branches are the functions of C26 and C27. *)
Example C28_analytic : forall eigs,
  (let! u := unfold_analytic smooth_goe eigs in Ok (u_values u)) = unfold_goe eigs /\
  (let! u := unfold_analytic smooth_poisson eigs in Ok (u_values u)) = unfold_poisson eigs.
Proof. intros [|x t]; split; reflexivity. Qed.

Section C29.
Context {F : Type} {N : Num F} {OL : OrdLaws F N}.
Variable emd : list F -> result (list (list F)).
Variable nexp : F -> F.
Variable polyfit : list F -> list F -> Z -> result (list F).
Variable uspline : list F -> list F -> Z -> F -> result (F -> F).
Variable fit_exp : list F -> list F -> F * F -> result (F * F).
Variable fit_gompertz : list F -> list F -> F * F * F -> result (F * F * F).
Variable smooth_g smooth_p : nat -> F -> F.

(** C29. For polynomial, spline and Gompertz unfolding of a spectrum without detrending, [evaluate_smoother] at the original
    eigenvalues gives values whose ascending rearrangement is the unfolding. *)
Theorem C29_evaluate_smoother : forall eigs kind a m degree ss u,
  Denotes a m -> m = MPoly \/ m = MSpline \/ m = MGomp ->
  eig_unfold emd nexp polyfit uspline fit_exp fit_gompertz smooth_g smooth_p eigs kind (Some a) degree ss false = Ok u ->
  exists v, evaluate_smoother u (u_originals u) = Ok (Some v) /\ length v = length eigs /\
    Permutation v (u_values u) /\ AscendingNaNLast (u_values u).
Proof.
  intros eigs kind a m d ss u Hd Hm. rewrite (eig_unfold_denotes _ _ _ _ _ _ _ _ _ _ _ m) by exact Hd.
  replace (match m with MGoe => _ | MPois => _ | _ => unfold_fit emd nexp polyfit uspline fit_exp fit_gompertz eigs m d ss false end)
    with (unfold_fit emd nexp polyfit uspline fit_exp fit_gompertz eigs m d ss false)
    by (destruct Hm as [-> |[-> | ->]]; reflexivity).
  unfold unfold_fit. destruct (fit _ _ _ _ _ _ _ _ _ _ _ _) as [[[w st] cl]|] eqn:E; [|discriminate].
  cbn [bind maybe_detrend]. intros [= <-].
  destruct (fit_closure _ _ _ _ _ _ _ m _ _ _ _ _ Hm E) as (f & -> & Hc).
  exists (map f (np_sort eigs)). unfold evaluate_smoother. cbn [unfolded_init u_smoother u_originals u_values].
  destruct (Hc (np_sort eigs)) as [H1 H2]. splits.
  - destruct cl; [congruence|exact H1|exact H1].
  - now rewrite map_length, np_sort_length.
  - apply np_sort_perm.
  - apply np_sort_spec.
Qed.

(** C29 (refuted for the rest). Exponential unfolding stores a three-argument function, so evaluating raises TypeError; the
    analytic unfoldings store nothing; [Trimmed.unfold] stores a function returning None, or nothing for splines. *)
Theorem C29_evaluate_smoother_refuted : forall eigs kind degree ss det u,
  (forall a, Denotes a MExp ->
    eig_unfold emd nexp polyfit uspline fit_exp fit_gompertz smooth_g smooth_p eigs kind (Some a) degree ss det = Ok u ->
    forall x, evaluate_smoother u x = Raise TypeError) /\
  (forall a m, Denotes a m -> m = MGoe \/ m = MPois ->
    eig_unfold emd nexp polyfit uspline fit_exp fit_gompertz smooth_g smooth_p eigs kind (Some a) degree ss det = Ok u ->
    forall x, evaluate_smoother u x = Raise NotImplementedErr) /\
  (forall m, trimmed_unfold emd nexp polyfit uspline fit_exp fit_gompertz eigs (SMember (MemberName m)) degree ss det = Ok u ->
    forall x, evaluate_smoother u x =
      match m with MSpline => Raise NotImplementedErr | MExp => Raise TypeError | _ => Ok None end).
Proof.
  intros eigs kind d ss det u. splits.
  - intros a Ha. rewrite (eig_unfold_denotes _ _ _ _ _ _ _ _ _ _ _ MExp) by exact Ha. unfold unfold_fit.
    destruct (fit _ _ _ _ _ _ _ _ _ _ _ _) as [[[w st] cl]|] eqn:E; [|discriminate]. cbn [bind].
    apply fit_closure_exp in E. subst cl. destruct (maybe_detrend _ _ _); [|discriminate]. cbn [bind]. intros [= <-] x. reflexivity.
  - intros a m Ha Hm. rewrite (eig_unfold_denotes _ _ _ _ _ _ _ _ _ _ _ m) by exact Ha.
    destruct Hm as [-> | ->]; unfold unfold_analytic; destruct eigs; try discriminate; intros [= <-] x; reflexivity.
  - intros m. unfold trimmed_unfold. destruct (fit _ _ _ _ _ _ _ _ _ _ _ _) as [[[w st] cl]|] eqn:E; [|discriminate].
    cbn [bind]. intros [= <-] x. unfold evaluate_smoother. cbn [u_smoother unfolded_init].
    destruct m.
    + destruct (fit_no_callable _ _ _ _ _ _ _ MPoly _ _ _ _ _ _ (or_introl eq_refl) E) as [[? _]|(_ & H1 & H2)]; [discriminate|].
      destruct cl; [congruence|apply H2|apply H2].
    + destruct (fit_no_callable _ _ _ _ _ _ _ MSpline _ _ _ _ _ _ (or_intror (or_introl eq_refl)) E) as [[_ ->]|(H & _)]; [reflexivity|congruence].
    + apply fit_closure_exp in E. subst. reflexivity.
    + destruct (fit_no_callable _ _ _ _ _ _ _ MGomp _ _ _ _ _ _ (or_intror (or_intror eq_refl)) E) as [[? _]|(_ & H1 & H2)]; [discriminate|].
      destruct cl; [congruence|apply H2|apply H2].
    + discriminate.
    + discriminate.
Qed.
End C29.
Print Assumptions C29_evaluate_smoother.
Print Assumptions C29_evaluate_smoother_refuted.
(** A spline that doubles, an exponential fit and a trimmed polynomial. *)
Example C29_case :
  let unf a := eig_unfold ex_emd ex_nexp (ex_poly [10; -1]%Q) ex_spline ex_exp ex_gomp (fun _ x => x) (fun _ x => x)
      [3; 1; 2]%Q None (Some a) (DInt 3) (AFloat 2%Q) false in
  (let! u := unf (SName "spline") in evaluate_smoother u [1; 5]%Q) = Ok (Some [2; 10]%Q) /\
  (let! u := unf (SName "poly") in evaluate_smoother u [1; 5]%Q) = Ok (Some [9; 5]%Q) /\
  (let! u := unf (SName "exp") in evaluate_smoother u [1; 5]%Q) = Raise TypeError /\
  (let! u := trimmed_unfold ex_emd ex_nexp (ex_poly [10; -1]%Q) ex_spline ex_exp ex_gomp [3; 1; 2]%Q (SMember "Polynomial") (DInt 3) (AFloat 2%Q) false in
   evaluate_smoother u [1; 5]%Q) = Ok None.
Proof. cbv zeta. splits; vm_compute; reflexivity. Qed.

(** C30 (refuted). For every decomposition whose trend has the length of its input, [emd_detrend] keeps the length and the first
    value, and entry [i + 1] is the detrended value that belongs at position [i]: everything is shifted by one place, the last
    value is lost. *)
Theorem C30_emd_detrend_shifted_refuted : forall (emd : list R -> result (list (list R))) (u : list R) imfs trend,
  u <> [] -> emd (emd_delta u) = Ok imfs -> last_opt imfs = Some trend -> length trend = length u ->
  exists v, emd_detrend emd u = Ok v /\ length v = length u /\ nth 0 v 0%R = nth 0 u 0%R /\
    forall i, (S i < length u)%nat -> nth (S i) v 0%R = (nth i u 0 - nth i trend 0)%R.
Proof. intros. eapply emd_detrend_R; eassumption. Qed.
Print Assumptions C30_emd_detrend_shifted_refuted.
(** C30. A decomposition without components makes it raise IndexError, one whose last component has another length a ValueError, and an
    error of the decomposition is passed on. *)
Theorem C30_errors : forall (emd : list R -> result (list (list R))) (u : list R) imfs trend e,
  (emd (emd_delta u) = Ok [] -> emd_detrend emd u = Raise IndexError) /\
  (emd (emd_delta u) = Ok (imfs ++ [trend]) -> length trend <> length u -> emd_detrend emd u = Raise ValueError) /\
  (emd (emd_delta u) = Raise e -> emd_detrend emd u = Raise e).
Proof.
  intros emd u imfs trend e. unfold emd_detrend. splits; intros ->; cbn [bind]; try reflexivity. intros H. rewrite last_opt_snoc.
  unfold np_sub. rewrite (proj2 (Nat.eqb_neq _ _)); [reflexivity|]. unfold emd_delta. rewrite map_length, seq_length. congruence.
Qed.
Print Assumptions C30_errors.
Example C30_errors_case : emd_detrend (fun _ => Ok []) [1; 2]%R = Raise IndexError /\ emd_detrend (fun d => Ok [d; [0%R]]) [1; 2]%R = Raise ValueError /\
  emd_detrend (fun _ => Raise TypeError) [1; 2]%R = Raise TypeError.
Proof.
  splits; [now apply (C30_errors (fun _ => Ok []) [1; 2]%R [] [] TypeError)|apply (C30_errors (fun d => Ok [d; [0%R]]) [1; 2]%R [emd_delta [1; 2]%R] [0%R] TypeError); [reflexivity|cbn; lia]|
    now apply (C30_errors (fun _ => Raise TypeError) [1; 2]%R [] [] TypeError)].
Qed.
(** With a zero trend the result should be the input. *)
Example C30_case : emd_detrend ex_emd [0; 1; 3; 7]%Q = Ok [0; 0; 1; 3]%Q.
Proof. vm_compute. reflexivity. Qed.
(** What is decomposed is the deviation from the line through the first and last value. *)
Example C30_delta : emd_delta [0; 1; 3; 7]%Q = [0; -4 # 3; -5 # 3; 0]%Q.
Proof. vm_compute. reflexivity. Qed.

Section C31.
Context {F : Type} {N : Num F}.
Variable emd : list F -> result (list (list F)).
Variable nexp : F -> F.
Variable polyfit : list F -> list F -> Z -> result (list F).
Variable uspline : list F -> list F -> Z -> F -> result (F -> F).
Variable fit_exp : list F -> list F -> F * F -> result (F * F).
Variable fit_gompertz : list F -> list F -> F * F * F -> result (F * F * F).
Variable smooth_g smooth_p : nat -> F -> F.

(** C31 (refuted). With [detrend=True] the fitted smoothers are detrended twice (once by [fit], once by [unfold]); the analytic
    ones not at all. *)
Theorem C31_detrend_applied_twice_refuted : forall eigs kind a m degree ss u,
  Denotes a m ->
  eig_unfold emd nexp polyfit uspline fit_exp fit_gompertz smooth_g smooth_p eigs kind (Some a) degree ss true = Ok u ->
  (m <> MGoe /\ m <> MPois ->
   exists w st cl w1 w2, fit emd nexp polyfit uspline fit_exp fit_gompertz (np_sort eigs) (SMember (MemberName m)) degree ss false true = Ok (w, st, cl) /\
     emd_detrend emd w = Ok w1 /\ emd_detrend emd w1 = Ok w2 /\ Permutation w2 (u_values u)) /\
  (m = MGoe \/ m = MPois ->
   eig_unfold emd nexp polyfit uspline fit_exp fit_gompertz smooth_g smooth_p eigs kind (Some a) degree ss false = Ok u).
Proof.
  intros eigs kind a m d ss u Ha H. rewrite (eig_unfold_denotes _ _ _ _ _ _ _ _ _ _ _ m) in H by exact Ha. split.
  - intros [H1 H2].
    assert (unfold_fit emd nexp polyfit uspline fit_exp fit_gompertz eigs m d ss true = Ok u) as E by (destruct m; congruence).
    clear H. unfold unfold_fit in E. destruct (fit _ _ _ _ _ _ _ _ _ _ _ _) as [[[w st] cl]|] eqn:Ef; [|discriminate].
    cbn [bind maybe_detrend] in E. destruct (emd_detrend emd w) as [w2|] eqn:E2; [|discriminate]. cbn [bind] in E.
    injection E as <-. apply fit_detrend in Ef. destruct Ef as (w0 & Ef & E1).
    exists w0, st, cl, w, w2. splits; auto. apply np_sort_perm.
  - intros Hm. rewrite (eig_unfold_denotes _ _ _ _ _ _ _ _ _ _ _ m) by exact Ha. destruct Hm as [-> | ->]; exact H.
Qed.
End C31.
Print Assumptions C31_detrend_applied_twice_refuted.
(** With a zero trend, one application already shifts the values; two shift them twice. *)
Example C31_case :
  (let! u := eig_unfold ex_emd ex_nexp (ex_poly [0; 1]%Q) ex_spline ex_exp ex_gomp (fun _ x => x) (fun _ x => x)
      [0; 1; 3; 7]%Q None (Some (SName "poly")) (DInt 3) (AFloat 2%Q) true in Ok (u_values u)) = Ok [0; 0; 0; 1]%Q /\
  (let! u := eig_unfold ex_emd ex_nexp (ex_poly [0; 1]%Q) ex_spline ex_exp ex_gomp (fun _ x => x) (fun _ x => x)
      [0; 1; 3; 7]%Q None (Some (SName "goe")) (DInt 3) (AFloat 2%Q) true in Ok (u_values u)) = Ok [0; 1; 3; 7]%Q.
Proof. split; vm_compute; reflexivity. Qed.

Section C33.
Context {F : Type} {N : Num F}.
Variable emd : list F -> result (list (list F)).
Variable nexp : F -> F.
Variable polyfit : list F -> list F -> Z -> result (list F).
Variable uspline : list F -> list F -> Z -> F -> result (F -> F).
Variable fit_exp : list F -> list F -> F * F -> result (F * F).
Variable fit_gompertz : list F -> list F -> F * F * F -> result (F * F * F).

(** C33. Bad arguments raise the stated exception whatever the fitting routines would have done. *)
Theorem C33_bad_arguments_raise : forall eigs a degree ss det rc e,
  BadArgs a degree ss e -> fit emd nexp polyfit uspline fit_exp fit_gompertz eigs a degree ss det rc = Raise e.
Proof. intros. now apply fit_bad. Qed.

(** C33. If the fitting routines never fail, nothing else raises. *)
Theorem C33_only_bad_arguments_raise : forall eigs a degree ss rc e,
  (forall x y k, exists c, polyfit x y k = Ok c) -> (forall x y k s, exists f, uspline x y k s = Ok f) ->
  (forall x y p, exists r, fit_exp x y p = Ok r) -> (forall x y p, exists r, fit_gompertz x y p = Ok r) ->
  eigs <> [] -> ProperArg a ->
  fit emd nexp polyfit uspline fit_exp fit_gompertz eigs a degree ss false rc = Raise e -> BadArgs a degree ss e.
Proof. intros. eapply fit_raise_bad; eassumption. Qed.
End C33.
Print Assumptions C33_bad_arguments_raise.
Print Assumptions C33_only_bad_arguments_raise.
(** A degree-2 polynomial, a spline with the default degree 7, a string name, and an accepted call. *)
Example C33_case :
  let f a d := fit ex_emd ex_nexp (ex_poly [10; -1]%Q) ex_spline ex_exp ex_gomp [1; 2]%Q a d (AFloat 2%Q) false true in
  f (SMember "Polynomial") (DInt 2) = Raise ValueError /\ f (SMember "Spline") (DInt 7) = Raise ValueError /\
  f (SName "poly") (DInt 3) = Raise RuntimeError /\ f (SName "Polynomial") (DInt 3) = Raise ValueError /\
  f (SMember "Polynomial") DNone = Raise ValueError /\
  (let! r := f (SMember "Polynomial") (DInt 3) in Ok (fst r)) = Ok ([9; 8], [1; 2])%Q /\
  BadArgs (F := Q) (SName "poly") (DInt 3) (AFloat 2%Q) RuntimeError.
Proof.
  cbv zeta. splits; try (vm_compute; reflexivity). apply (bad_string MPoly); [exists 3; split; [reflexivity|lia]|discriminate].
Qed.

Section C34.
Context {F : Type} {N : Num F}.
Variable emd : list F -> result (list (list F)).
Variable nexp : F -> F.
Variable len_pow : nat -> F -> F.
Variable polyfit : list F -> list F -> Z -> result (list F).
Variable uspline : list F -> list F -> Z -> F -> result (F -> F).
Variable fit_exp : list F -> list F -> F * F -> result (F * F).
Variable fit_gompertz : list F -> list F -> F * F * F -> result (F * F * F).
Variable fmt3 fmt2 : F -> string.
Variable defaults : list F.
Notation fit_all := (fit_all emd nexp len_pow polyfit uspline fit_exp fit_gompertz fmt3 fmt2 defaults).
Notation names := (get_smoother_names fmt3 defaults).

(** C34. With a list of smoothing factors the unfolding columns carry, in order, the names of the summary; the four summary
    columns of the [j]-th unfolding are at positions 4j+3 .. 4j+6, where its statistics are written. *)
Theorem C34_columns_line_up : forall eigs polys smooths degs gomp det cols,
  fit_all eigs polys (SList smooths) degs gomp det = Ok cols ->
  map c_name cols = names polys (SList smooths) degs gomp /\
  forall j c k suf, nth_error cols j = Some c ->
    nth_error ["--mean_spacing"; "--var_spacing"; "--msqe"; "--score"]%string k = Some suf ->
    nth_error (summary_columns (names polys (SList smooths) degs gomp)) (4 * j + 3 + k) = Some (c_name c ++ suf)%string.
Proof.
  intros eigs polys smooths degs gomp det cols H.
  assert (map c_name cols = names polys (SList smooths) degs gomp) as E.
  { unfold M_Smooth.fit_all in H. destruct (for_each _ polys) as [ps|] eqn:E1; [|discriminate]. cbn [bind] in H.
    destruct (for_each _ (list_prod smooths degs)) as [sp|] eqn:E2; [|discriminate]. cbn [bind] in H.
    destruct (if gomp then _ else _) as [g|] eqn:E3; [|discriminate]. cbn [bind] in H. injection H as <-.
    rewrite !map_app. unfold get_smoother_names. f_equal; [|f_equal].
    - eapply for_each_names. exact E1.
    - rewrite flat_map_prod. apply (for_each_names (fun p : F * Z => spline_name (snd p) ++ "-spline_" ++ fmt3 (fst p))%string
        (fun p => fit emd nexp polyfit uspline fit_exp fit_gompertz eigs (SMember "Spline") (DInt (snd p)) (AFloat (fst p)) det true)).
      rewrite <- E2. clear. induction (list_prod smooths degs) as [|[s d] t IH]; [reflexivity|]. cbn [for_each fst snd]. now rewrite IH.
    - destruct gomp; [|now injection E3 as <-].
      destruct (fit _ _ _ _ _ _ _ _ _ _ _ _); [|discriminate]. cbn [bind] in E3.
      destruct (make_column _ _) eqn:E4; [|discriminate]. cbn [bind] in E3. injection E3 as <-. cbn [map].
      now rewrite (make_column_name _ _ _ E4). }
  split; [exact E|]. intros j c k suf Hj Hk. apply summary_nth; [|exact Hk].
  rewrite <- E. rewrite nth_error_map, Hj. reflexivity.
Qed.

(** C34 (refuted for "heuristic"). The unfolding columns are named with two decimals, the summary with three: with any spline
    degree and any default factor whose two formats differ in length, the names differ. *)
Theorem C34_heuristic_names_refuted : forall eigs polys degs gomp det cols,
  fit_all eigs polys SHeuristic degs gomp det = Ok cols ->
  degs <> [] -> defaults <> [] -> (forall s, In s defaults -> String.length (fmt2 s) <> String.length (fmt3 s)) ->
  map c_name cols <> names polys SHeuristic degs gomp.
Proof.
  intros eigs polys degs gomp det cols H Hd Hdef Hf.
  unfold M_Smooth.fit_all in H. destruct (for_each _ polys) as [ps|] eqn:E1; [|discriminate]. cbn [bind] in H.
  destruct (for_each _ (list_prod defaults degs)) as [sp|] eqn:E2; [|discriminate]. cbn [bind] in H.
  destruct (if gomp then _ else _) as [g|] eqn:E3; [|discriminate]. cbn [bind] in H. injection H as <-.
  rewrite !map_app. unfold get_smoother_names. apply for_each_names in E1. rewrite E1. intro E. apply app_inv_head in E.
  destruct defaults as [|s0 ds]; [congruence|]. destruct degs as [|d0 dt]; [congruence|].
  cbn [list_prod map flat_map app] in E, E2.
  cbn [for_each] in E2.
  destruct (fit _ _ _ _ _ _ _ _ _ _ _ _) as [r|]; [|discriminate]. cbn [bind] in E2.
  destruct (make_column _ r) as [c|] eqn:E4; [|discriminate]. cbn [bind] in E2.
  destruct (for_each _ _) as [rest|]; [|discriminate]. cbn [bind] in E2. injection E2 as <-.
  cbn [map app] in E. rewrite (make_column_name _ _ _ E4) in E. injection E as E _.
  apply (f_equal String.length) in E.
  assert (forall a b, String.length (a ++ b) = (String.length a + String.length b)%nat) as L.
  { intros a b. induction a; cbn; congruence. }
  rewrite !L in E. cbn [String.length] in E. rewrite !L in E. apply (Hf s0); [now left|]. lia.
Qed.
End C34.
Print Assumptions C34_columns_line_up.
Print Assumptions C34_heuristic_names_refuted.

(** C34. With Python's formatting (exact rationals for the factors), the names are pairwise distinct when degrees are distinct
    and the factors are more than a thousandth apart. *)
Theorem C34_names_distinct : forall polys (smooths : list Q) degs gomp,
  NoDup polys -> NoDup degs -> ForallOrdPairs FarApart smooths ->
  NoDup (get_smoother_names (format_fixed 3) [] polys (SList smooths) degs gomp).
Proof. exact names_nodup. Qed.
Print Assumptions C34_names_distinct.
(** C34. The names themselves, in order: one per polynomial degree, one per factor and spline degree with the degree's word and
    the formatted factor, and the Gompertz column. *)
Theorem C34_names {F} (fmt : F -> string) (defaults : list F) polys smooths degs (gomp : bool) :
  exists words, Forall2 SplineWord degs words /\
    get_smoother_names fmt defaults polys (SList smooths) degs gomp =
    (map (fun d => String.append "poly_" (DecimalString.NilZero.string_of_int (Z.to_int d))) polys
     ++ flat_map (fun s => map (fun w => String.append w (String.append "-spline_" (fmt s))) words) smooths
     ++ if gomp then ["gompertz"%string] else [])%list.
Proof.
  exists (map spline_name degs). split.
  - induction degs as [|d degs IH]; cbn [map]; constructor; [|exact IH]. unfold spline_name, str_of_int.
    destruct (Z.eqb_spec d 3) as [-> |]; [constructor|]. destruct (Z.eqb_spec d 4) as [-> |]; [constructor|].
    destruct (Z.eqb_spec d 5) as [-> |]; [constructor|]. now constructor.
  - unfold get_smoother_names. f_equal. f_equal. apply flat_map_ext. intros s. now rewrite map_map.
Qed.
Print Assumptions C34_names.
Example C34_case :
  get_smoother_names (format_fixed 3) [] [3; 11] (SList [7#5; -(1#8)]%Q) [3; 4; 2] true =
  ["poly_3"; "poly_11"; "cubic-spline_1.400"; "quartic-spline_1.400"; "deg2-spline_1.400";
   "cubic-spline_-0.125"; "quartic-spline_-0.125"; "deg2-spline_-0.125"; "gompertz"]%string /\
  (let! cs := fit_all ex_emd ex_nexp (fun _ s => s) (ex_poly [0; 1]%Q) ex_spline ex_exp ex_gomp (format_fixed 3) (format_fixed 2) []
     [1; 2; 4]%Q [3] (SList [7#5; -(1#8)]%Q) [2] true false in Ok (map c_name cs, map c_msqe cs))
  = Ok (["poly_3"; "deg2-spline_1.400"; "deg2-spline_-0.125"; "gompertz"]%string, [1 # 3; 63 # 25; 1189 # 192; 101 # 3]%Q) /\
  ForallOrdPairs FarApart [7#5; -(1#8)]%Q.
Proof.
  splits.
  - vm_compute. reflexivity.
  - vm_compute. reflexivity.
  - repeat constructor.
Qed.
(** The default factor 2/5 is "0.40" in one place and "0.400" in the other. *)
Example C34_heuristic_case :
  (let! cs := fit_all ex_emd ex_nexp (fun _ s => s) (ex_poly [0; 1]%Q) ex_spline ex_exp ex_gomp (format_fixed 3) (format_fixed 2) [2#5]%Q
     [1; 2; 4]%Q [] SHeuristic [3] false false in Ok (map c_name cs)) = Ok ["cubic-spline_0.40_heuristic"]%string /\
  get_smoother_names (format_fixed 3) [2#5]%Q [] SHeuristic [3] false = ["cubic-spline_0.400_heuristic"]%string.
Proof. split; vm_compute; reflexivity. Qed.
