(** Properties C98-C101: what the counting function is fitted to, and what the promises of the fitting routines imply for the
    unfolded values. *)
From Coq Require Import String List ZArith Bool Arith Lia Reals Lra Sorting.Sorted Sorting.Permutation.
From Verif Require Import Base S_Order S_EigVals S_Trim M_Enum M_Trim M_Smooth S_Smooth S_Fit P_Order P_Step P_EigVals P_TrimStat P_Smooth P_Fit.
Import ListNotations.
Local Open Scope R_scope.
Local Notation length := List.length.

Section Fit.
Variable emd : list R -> result (list (list R)).
Variable polyfit : list R -> list R -> Z -> result (list R).
Variable uspline : list R -> list R -> Z -> R -> result (R -> R).
Variable fit_exp : list R -> list R -> R * R -> result (R * R).
Variable fit_gompertz : list R -> list R -> R * R * R -> result (R * R * R).
Variable smooth_g smooth_p : nat -> R -> R.
Notation fit := (fit emd exp polyfit uspline fit_exp fit_gompertz).
Notation eig_unfold := (eig_unfold emd exp polyfit uspline fit_exp fit_gompertz smooth_g smooth_p).
Notation trimmed_unfold := (trimmed_unfold emd exp polyfit uspline fit_exp fit_gompertz).

(** C98. Whatever the method, the step values returned beside the fit of ascending eigenvalues are [1, ..., n].  Each is at most
    the number of eigenvalues up to that point, and equal to it exactly at the last member of each group of equal eigenvalues. *)
Theorem C98_steps : forall eigs sm deg ss det rc u st cl, Ascending eigs ->
  fit eigs sm deg ss det rc = Ok (u, st, cl) ->
  length st = length eigs /\
  forall i e, nth_error eigs i = Some e -> exists s, nth_error st i = Some s /\ s = INR (i + 1) /\ s <= IZR (CountLe eigs e) /\
    (s = IZR (CountLe eigs e) <-> forall e', nth_error eigs (i + 1) = Some e' -> e < e').
Proof.
  intros eigs sm deg ss det rc u st cl Hs H.
  assert (st = Staircase (length eigs)) as ->.
  { rewrite <- fit_steps_R. unfold M_Smooth.fit in H. destruct (validate_args sm deg ss); [|discriminate]. cbn [bind] in H.
    repeat match type of H with
    | (if ?x then _ else _) = _ => destruct x
    | match ?x with _ => _ end = _ => destruct x; try discriminate
    | bind ?x _ = _ => destruct x as [?|]; [|discriminate]; cbn [bind] in H
    end; congruence. }
  split; [apply Staircase_length|]. intros i e Hi. exists (INR (i + 1)).
  assert (i < length eigs)%nat as Hlt by (apply nth_error_Some; congruence).
  destruct (CountLe_prefix eigs i e Hs Hi) as [H1 H2]. splits; auto.
  - now apply Staircase_nth.
  - rewrite INR_IZR_INZ. now apply IZR_le.
  - rewrite <- H2. rewrite INR_IZR_INZ. split; [intro E; apply eq_IZR in E; auto|intros ->; auto].
Qed.

(** What each routine is asked to fit, and the curve whose values at the eigenvalues are returned. *)
Theorem C98_curves : forall eigs deg ss rc u st cl,
  (fit eigs (SMember "Polynomial") deg ss false rc = Ok (u, st, cl) ->
     exists d c, deg = DInt d /\ (3 <= d)%Z /\ polyfit eigs (Staircase (length eigs)) d = Ok c /\ u = map (PolyAt c) eigs) /\
  (fit eigs (SMember "Spline") deg ss false rc = Ok (u, st, cl) ->
     exists k s f, deg = DInt k /\ (k <= 5)%Z /\ (ss = AFloat s \/ ss = AHeuristic /\ s = INR (length eigs) * Rvar1 eigs) /\
       uspline eigs (Staircase (length eigs)) k s = Ok f /\ u = map f eigs) /\
  (fit eigs (SMember "Exponential") deg ss false rc = Ok (u, st, cl) ->
     exists a b, fit_exp eigs (Staircase (length eigs)) (INR (length eigs) / 2, 1 / 2) = Ok (a, b) /\
       u = map (fun x => a * exp (- b * x)) eigs) /\
  (fit eigs (SMember "Gompertz") deg ss false rc = Ok (u, st, cl) ->
     exists a b c, fit_gompertz eigs (Staircase (length eigs)) (INR (length eigs), 1, 1) = Ok (a, b, c) /\
       u = map (fun x => a * exp (- b * exp (- c * x))) eigs).
Proof.
  intros eigs deg ss rc u st cl. unfold M_Smooth.fit. cbn [is_member String.eqb Ascii.eqb Bool.eqb maybe_detrend bind].
  assert (Hn : nlen eigs = INR (length eigs)) by (unfold nlen; cbn; now rewrite INR_IZR_INZ).
  rewrite fit_steps_R. splits.
  - unfold validate_args. cbn [smoother_enum_arg validate bind String.eqb Ascii.eqb Bool.eqb]. destruct deg as [d| |]; try discriminate.
    destruct (d <? 3)%Z eqn:E; [discriminate|]. cbn [bind]. destruct (polyfit _ _ _) as [c|] eqn:E2; [|discriminate].
    cbn [bind]. intro H. exists d, c. splits; auto; [apply Z.ltb_ge in E; lia|].
    injection H as <- _ _. apply map_ext. intro x. apply polyval_R.
  - unfold validate_args. cbn [smoother_enum_arg validate bind String.eqb Ascii.eqb Bool.eqb]. destruct deg as [d| |]; try discriminate.
    destruct (5 <? d)%Z eqn:E; [discriminate|]. apply Z.ltb_ge in E. destruct ss as [s| | | |]; try discriminate; cbn [bind].
    + destruct (uspline _ _ _ _) as [f|] eqn:E2; [|discriminate]. cbn [bind]. intros [= <- _ _]. exists d, s, f. splits; auto.
    + destruct (uspline _ _ _ _) as [f|] eqn:E2; [|discriminate]. cbn [bind]. intros [= <- _ _].
      exists d, (INR (length eigs) * Rvar1 eigs), f. rewrite Hn, nvar1_R in E2. splits; auto.
  - cbn [smoother_enum_arg validate_args validate bind String.eqb Ascii.eqb Bool.eqb]. rewrite Hn.
    destruct (fit_exp _ _ _) as [[a b]|] eqn:E; [|discriminate]. cbn [bind]. intros [= <- _ _]. exists a, b. split; first [exact E|reflexivity].
  - cbn [smoother_enum_arg validate_args validate bind String.eqb Ascii.eqb Bool.eqb].
    destruct (last_opt _) as [top|] eqn:El; [|discriminate].
    destruct (fit_gompertz _ _ _) as [[[a b] c]|] eqn:E; [|discriminate]. cbn [bind]. intros [= <- _ _]. exists a, b, c. split; [|reflexivity].
    rewrite <- E. do 3 f_equal.
    destruct (length eigs) as [|n] eqn:Ele; [discriminate|].
    unfold last_opt in El. rewrite Staircase_length, Staircase_nth in El by lia. injection El as <-. f_equal. lia.
Qed.

(** ** Polynomial smoothing with least squares *)
Lemma unfold_poly_inv eigs kind a deg ss det r : Denotes a MPoly -> eig_unfold eigs kind (Some a) deg ss det = Ok r ->
  exists d c w, deg = DInt d /\ (3 <= d)%Z /\ polyfit (np_sort eigs) (Staircase (length eigs)) d = Ok c /\
    (let! u := maybe_detrend emd det (map (PolyAt c) (np_sort eigs)) in maybe_detrend emd det u) = Ok w /\ u_values r = np_sort w.
Proof.
  intros Ha. rewrite (eig_unfold_denotes _ _ _ _ _ _ _ _ eigs kind a MPoly) by exact Ha.
  unfold unfold_fit. destruct (fit _ _ _ _ det true) as [[[u st] cl]|] eqn:E; [|discriminate]. cbn [bind MemberName] in *.
  destruct (maybe_detrend emd det u) as [w|] eqn:E2; [|discriminate]. cbn [bind]. intros [= <-]. cbn [u_values unfolded_init].
  assert (exists v, fit (np_sort eigs) (SMember "Polynomial") deg ss false true = Ok (v, st, cl) /\ maybe_detrend emd det v = Ok u) as [v [Ev Eu]].
  { destruct det; [|exists u; split; [exact E|reflexivity]]. apply fit_detrend in E as [v [H1 H2]]. now exists v. }
  destruct (C98_curves (np_sort eigs) deg ss true v st cl) as [HP _]. destruct (HP Ev) as [d [c [-> [Hd [Hc ->]]]]].
  rewrite np_sort_length in Hc. exists d, c, w. splits; auto. rewrite Eu. cbn [bind]. exact E2.
Qed.

(** C99. If the counting function of the spectrum is itself a polynomial of at most the chosen degree, unfolding returns exactly
    [1, ..., n]: all spacings are one. *)
Theorem C99_exact : forall eigs s p kind a d ss r, LeastSquares polyfit -> Denotes a MPoly ->
  Permutation eigs s -> Ascending s -> (Z.of_nat (length p) <= d + 1)%Z -> map (PolyAt p) s = Staircase (length s) ->
  eig_unfold eigs kind (Some a) (DInt d) ss false = Ok r ->
  u_values r = Staircase (length eigs) /\ Gaps (u_values r) = repeat 1 (length eigs - 1).
Proof.
  intros eigs s p kind a d ss r HLS Ha Hp Hs Hl Hm H.
  assert (np_sort eigs = s) as Es. { apply sorted_perm_eq; try (apply StronglySorted_R; auto; apply np_sort_ascending, notnan_R). rewrite <- np_sort_perm. exact Hp. }
  rewrite <- (Permutation_length Hp) in Hm.
  destruct (unfold_poly_inv _ _ _ _ _ _ _ Ha H) as [d' [c [w [[= <-] [Hd [Hc [Hw ->]]]]]]]. cbn [maybe_detrend bind] in Hw. injection Hw as <-.
  rewrite Es in *. destruct (HLS _ _ _ _ Hc) as [_ Hmin]. specialize (Hmin p Hl). rewrite (Sse_exact (PolyAt p)) in Hmin by exact Hm.
  apply Sse_zero in Hmin; [|rewrite Staircase_length; now rewrite (Permutation_length Hp)]. rewrite Hmin.
  rewrite np_sort_id; [split; [reflexivity|apply Staircase_gaps]|]. apply Ascending_NpLe; [apply notnan_R|]. apply StronglySorted_R, Staircase_sorted.
Qed.

(** The unfolded values always have the mean of [1, ..., n]. *)
Theorem C99_mean : forall eigs kind a deg ss r, LeastSquares polyfit -> Denotes a MPoly -> eigs <> [] ->
  eig_unfold eigs kind (Some a) deg ss false = Ok r -> Rmean (u_values r) = (INR (length eigs) + 1) / 2.
Proof.
  intros eigs kind a deg ss r HLS Ha Hne H.
  destruct (unfold_poly_inv _ _ _ _ _ _ _ Ha H) as [d [c [w [-> [Hd [Hc [Hw ->]]]]]]]. cbn [maybe_detrend bind] in Hw. injection Hw as <-.
  destruct (HLS _ _ _ _ Hc) as [Hcl Hmin].
  set (n := length eigs) in *. set (s := np_sort eigs) in *. assert (Hsl : length s = n) by apply np_sort_length.
  set (S1 := Rsum (map (PolyAt c) s)). set (S2 := Rsum (Staircase n)).
  assert (Hn : 0 < INR n) by (apply lt_0_INR; unfold n; destruct eigs; [congruence|cbn; lia]).
  assert (Hk : forall k, 0 <= 2 * k * (S1 - S2) + INR n * (k * k)).
  { intro k. destruct (poly_add c [k]) as [p [Lp Hp]].
    assert (Lp' : (Z.of_nat (length p) <= d + 1)%Z). { cbn [length] in Lp. lia. }
    specialize (Hmin p Lp'). rewrite (Sse_ext (PolyAt p) (fun x => PolyAt c x + k)) in Hmin by (intro x; rewrite Hp, poly_const; ring).
    assert (F1 : firstn n s = s) by (rewrite <- Hsl; apply firstn_all).
    assert (F2 : firstn n (Staircase n) = Staircase n) by (rewrite <- (Staircase_length n) at 1; apply firstn_all).
    rewrite Sse_shift in Hmin. rewrite Staircase_length, Hsl, F1, F2, Nat.min_id in Hmin. fold S1 S2 in Hmin. lra. }
  assert (S1 = S2) as E.
  { specialize (Hk (- (S1 - S2) / INR n)). replace (_ + _) with (- ((S1 - S2) * (S1 - S2) / INR n)) in Hk by (field; lra).
    assert (0 <= (S1 - S2) * (S1 - S2)) by apply Rle_0_sqr.
    assert ((S1 - S2) * (S1 - S2) <= 0).
    { apply Rmult_le_reg_r with (/ INR n); [now apply Rinv_0_lt_compat|]. unfold Rdiv in Hk. lra. }
    assert ((S1 - S2) * (S1 - S2) = 0) as Z by lra. apply Rmult_integral in Z. lra. }
  unfold Rmean. rewrite <- (Permutation_length (np_sort_perm _)), map_length, Hsl.
  replace (Rsum (np_sort (map (PolyAt c) s))) with S1.
  - rewrite E. unfold S2. rewrite Staircase_sum. field. lra.
  - unfold S1. generalize (np_sort_perm (map (PolyAt c) s)). generalize (np_sort (map (PolyAt c) s)). generalize (map (PolyAt c) s).
    intros l l' HP. induction HP; cbn [Rsum]; lra.
Qed.

(** Among the polynomial fits of [fit_all], a larger degree never has a larger mean squared error. *)
Lemma for_each_nth {A B} (f : A -> result B) l : forall r i x, for_each f l = Ok r -> nth_error l i = Some x ->
  exists y, nth_error r i = Some y /\ f x = Ok y.
Proof.
  induction l as [|a t IH]; intros r [|i] x H Hi; cbn [nth_error] in Hi; try discriminate; cbn [for_each] in H;
    (destruct (f a) as [y|] eqn:E; [|discriminate]); cbn [bind] in H; (destruct (for_each f t) as [ys|] eqn:E2; [|discriminate]); cbn [bind] in H;
    injection H as <-.
  - injection Hi as <-. now exists y.
  - cbn [nth_error]. eapply IH; [reflexivity|exact Hi].
Qed.
Lemma msqe_Sse (f : R -> R) eigs : forall ys, length eigs = length ys ->
  nmean (map (fun v => nmul v v) (zip_with nsub (map f eigs) ys)) = Sse f eigs ys / INR (length eigs).
Proof.
  intros ys HL. rewrite nmean_R. unfold Rmean. f_equal.
  - revert ys HL. induction eigs as [|a t IH]; intros [|y ys] HL; cbn [length] in HL; try discriminate; [reflexivity|].
    cbn [map zip_with Rsum Sse]. rewrite IH by lia. cbn. ring.
  - f_equal. rewrite map_length. revert ys HL. induction eigs as [|a t IH]; intros [|y ys] HL; cbn [length] in HL; try discriminate; [reflexivity|].
    cbn [map zip_with length]. rewrite IH by lia. reflexivity.
Qed.
Theorem C99_errors_fall : forall len_pow fmt3 fmt2 defaults eigs polys smooths degs gomp cols i j di dj,
  LeastSquares polyfit ->
  fit_all emd exp len_pow polyfit uspline fit_exp fit_gompertz fmt3 fmt2 defaults eigs polys smooths degs gomp false = Ok cols ->
  nth_error polys i = Some di -> nth_error polys j = Some dj -> (di <= dj)%Z ->
  exists ci cj, nth_error cols i = Some ci /\ nth_error cols j = Some cj /\
    c_name ci = ("poly_" ++ str_of_int di)%string /\ c_name cj = ("poly_" ++ str_of_int dj)%string /\ c_msqe cj <= c_msqe ci.
Proof.
  intros len_pow fmt3 fmt2 defaults eigs polys smooths degs gomp cols i j di dj HLS H Hi Hj Hd.
  unfold fit_all in H. destruct (for_each _ polys) as [ps|] eqn:EP; [|discriminate]. cbn [bind] in H.
  assert (exists rest, cols = ps ++ rest) as [rest ->].
  { repeat match type of H with bind ?x _ = _ => destruct x as [?|]; [|discriminate]; cbn [bind] in H end. injection H as <-. eauto. }
  clear H.
  assert (K : forall k d, nth_error polys k = Some d -> exists col c, nth_error (ps ++ rest) k = Some col /\ c_name col = ("poly_" ++ str_of_int d)%string /\
     polyfit eigs (Staircase (length eigs)) d = Ok c /\ c_msqe col = Sse (PolyAt c) eigs (Staircase (length eigs)) / INR (length eigs)).
  { intros k d Hk. destruct (for_each_nth _ _ _ _ _ EP Hk) as [col [Hcol Hf]].
    destruct (fit eigs _ _ _ _ _) as [[[u st] cl]|] eqn:EF in Hf; [|discriminate]. cbn [bind] in Hf.
    assert (st = Staircase (length eigs)) as ->.
    { rewrite <- fit_steps_R. unfold M_Smooth.fit in EF. destruct (validate_args _ _ _); [|discriminate]. cbn [bind is_member String.eqb Ascii.eqb Bool.eqb] in EF.
      destruct (polyfit _ _ _); [|discriminate]. cbn [bind maybe_detrend] in EF. congruence. }
    destruct (C98_curves eigs (DInt d) (AFloat (ndiv (nofZ 14) (nofZ 10))) true u (Staircase (length eigs)) cl) as [HP _].
    destruct (HP EF) as [d' [c [[= <-] [_ [Hc ->]]]]].
    exists col, c. splits; auto.
    - rewrite nth_error_app1; [exact Hcol|]. apply nth_error_Some. congruence.
    - eapply make_column_name, Hf.
    - unfold make_column, np_sub in Hf. rewrite map_length, Staircase_length, Nat.eqb_refl in Hf. cbn [bind] in Hf. injection Hf as <-.
      cbn [c_msqe]. apply msqe_Sse. now rewrite Staircase_length. }
  destruct (K i di Hi) as [ci [pi [Hci [Ni [Hpi Mi]]]]]. destruct (K j dj Hj) as [cj [pj [Hcj [Nj [Hpj Mj]]]]].
  exists ci, cj. splits; auto. rewrite Mi, Mj. destruct (HLS _ _ _ _ Hpi) as [Li _]. destruct (HLS _ _ _ _ Hpj) as [_ Mn].
  specialize (Mn pi ltac:(lia)). apply Rmult_le_compat_r; [|exact Mn].
  destruct (length eigs) as [|n]; [cbn; rewrite Rinv_0; lra|]. left. apply Rinv_0_lt_compat, lt_0_INR. lia.
Qed.

(** C100. With polynomial smoothing, the unfolded values do not depend on the unit or the origin of the eigenvalues. *)
Lemma ls_aff s n d c c' k b : LeastSquares polyfit -> k <> 0 -> length s = n ->
  polyfit s (Staircase n) d = Ok c -> polyfit (map (fun v => k * v + b) s) (Staircase n) d = Ok c' ->
  map (PolyAt c) s = map (PolyAt c') (map (fun v => k * v + b) s).
Proof.
  intros HLS Hk Hn H1 H2. destruct (HLS _ _ _ _ H1) as [L1 M1]. destruct (HLS _ _ _ _ H2) as [L2 M2].
  destruct (poly_aff k b c') as [q [Lq Hq]].
  assert (E : forall f, Sse f (map (fun v => k * v + b) s) (Staircase n) = Sse (fun x => f (k * x + b)) s (Staircase n)) by (intro f; apply Sse_map).
  rewrite map_map. transitivity (map (PolyAt q) s); [|apply map_ext; intro x; apply Hq].
  apply (ls_unique (Z.to_nat (d + 1)) s (Staircase n)).
  - now rewrite Staircase_length.
  - lia.
  - lia.
  - intros p Lp. apply M1. lia.
  - intros p Lp. rewrite (Sse_ext (PolyAt q) (fun x => PolyAt c' (k * x + b))) by exact Hq. rewrite <- E.
    destruct (poly_aff (/ k) (- b / k) p) as [p' [Lp' Hp']]. specialize (M2 p' ltac:(lia)).
    eapply Rle_trans; [exact M2|]. rewrite E. apply Req_le, Sse_ext. intro x. rewrite Hp'. f_equal. field. exact Hk.
Qed.
Theorem C100_affine : forall eigs kind kind' a deg ss ss' det k b r r', LeastSquares polyfit -> Denotes a MPoly -> 0 < k ->
  eig_unfold eigs kind (Some a) deg ss det = Ok r ->
  eig_unfold (map (fun v => k * v + b) eigs) kind' (Some a) deg ss' det = Ok r' -> u_values r' = u_values r.
Proof.
  intros eigs kind kind' a deg ss ss' det k b r r' HLS Ha Hk H1 H2.
  destruct (unfold_poly_inv _ _ _ _ _ _ _ Ha H1) as [d [c [w [-> [Hd [Hc [Hw ->]]]]]]].
  destruct (unfold_poly_inv _ _ _ _ _ _ _ Ha H2) as [d' [c' [w' [[= <-] [_ [Hc' [Hw' ->]]]]]]].
  rewrite np_sort_affine in Hc', Hw' by exact Hk. rewrite map_length in Hc'.
  rewrite (ls_aff (np_sort eigs) (length eigs) d c c' k b HLS) in Hw; auto; [|lra|apply np_sort_length]. congruence.
Qed.
(** Reversing the sign of all eigenvalues mirrors the unfolded values: [u] becomes [n + 1 - u], in reverse order, so the spacings
    are the same in reverse order. *)
Lemma np_sort_neg (l : list R) : np_sort (map (fun v => -1 * v + 0) l) = rev (map (fun v => -1 * v + 0) (np_sort l)).
Proof.
  apply sorted_perm_eq.
  - apply StronglySorted_R, np_sort_ascending, notnan_R.
  - assert (S : StronglySorted Rle (np_sort l)) by (apply StronglySorted_R, np_sort_ascending, notnan_R).
    assert (A : forall a b, StronglySorted Rle a -> StronglySorted Rle b -> (forall x y, In x a -> In y b -> x <= y) -> StronglySorted Rle (a ++ b)).
    { induction a as [|x t IH]; intros b Sa Sb Hab; auto. inversion_clear Sa. cbn [app]. constructor.
      - apply IH; auto. intros. apply Hab; [now right|auto].
      - apply Forall_app. split; auto. apply Forall_forall. intros y Hy. apply Hab; [now left|auto]. }
    induction S as [|x t St IH Hx]; [constructor|]. cbn [map rev]. apply A; auto; [repeat constructor|].
    intros u v Hu [<-|[]]. apply in_rev, in_map_iff in Hu as [z [<- Hz]]. rewrite Forall_forall in Hx. specialize (Hx z Hz). lra.
  - rewrite <- Permutation_rev, <- np_sort_perm. now apply Permutation_map, np_sort_perm.
Qed.
Theorem C100_mirror : forall eigs kind kind' a deg ss ss' r r', LeastSquares polyfit -> Denotes a MPoly ->
  eig_unfold eigs kind (Some a) deg ss false = Ok r ->
  eig_unfold (map Ropp eigs) kind' (Some a) deg ss' false = Ok r' ->
  u_values r' = rev (map (fun u => INR (length eigs) + 1 - u) (u_values r)) /\ Gaps (u_values r') = rev (Gaps (u_values r)).
Proof.
  intros eigs kind kind' a deg ss ss' r r' HLS Ha H1 H2.
  destruct (unfold_poly_inv _ _ _ _ _ _ _ Ha H1) as [d [c [w [-> [Hd [Hc [Hw ->]]]]]]].
  destruct (unfold_poly_inv _ _ _ _ _ _ _ Ha H2) as [d' [c' [w' [[= <-] [_ [Hc' [Hw' ->]]]]]]].
  cbn [maybe_detrend bind] in Hw, Hw'. injection Hw as <-. injection Hw' as <-.
  assert (EN : map Ropp eigs = map (fun v => -1 * v + 0) eigs) by (apply map_ext; intro; ring).
  rewrite EN, np_sort_neg, map_length in Hc'. rewrite EN, np_sort_neg. clear EN.
  set (n := length eigs) in *. set (s := np_sort eigs) in *. assert (Hs : length s = n) by apply np_sort_length.
  destruct (HLS _ _ _ _ Hc) as [L1 M1]. destruct (HLS _ _ _ _ Hc') as [L2 M2].
  (* the mirrored polynomial on the original points *)
  assert (T : forall p, exists q, (length q <= Nat.max 1 (length p))%nat /\ forall x, PolyAt q x = INR (n + 1) - PolyAt p (-1 * x + 0)).
  { intro p. destruct (poly_aff (-1) 0 p) as [p1 [A1 B1]]. destruct (poly_scale (-1) p1) as [p2 [A2 B2]].
    destruct (poly_add [INR (n + 1)] p2) as [q [A3 B3]]. exists q. split; [cbn [length] in A3; lia|]. intro x. rewrite B3, poly_const, B2, B1. ring. }
  assert (E : forall p q, (forall x, PolyAt q x = INR (n + 1) - PolyAt p (-1 * x + 0)) ->
     Sse (PolyAt p) (rev (map (fun v => -1 * v + 0) s)) (Staircase n) = Sse (PolyAt q) s (Staircase n)).
  { intros p q Hq. transitivity (Sse (PolyAt p) (rev (map (fun v => -1 * v + 0) s)) (rev (map (fun y => INR (n + 1) - y) (Staircase n)))).
    { now rewrite <- Staircase_rev, rev_involutive. }
    rewrite Sse_rev by (now rewrite !map_length, Staircase_length). rewrite Sse_map.
    rewrite (Sse_ext (PolyAt q) (fun x => INR (n + 1) - PolyAt p (-1 * x + 0))) by exact Hq. clear.
    generalize (Staircase n). induction s as [|v t IH]; intros [|y l]; cbn [map Sse]; auto. rewrite IH. cbv beta. ring. }
  destruct (T c') as [q [Lq Hq]].
  assert (V : map (PolyAt c) s = map (PolyAt q) s).
  { apply (ls_unique (Z.to_nat (d + 1)) s (Staircase n)); try lia.
    - now rewrite Staircase_length.
    - intros p Lp. apply M1. lia.
    - intros p Lp. rewrite <- (E c' q Hq). destruct (T p) as [p' [Lp' Hp']].
      specialize (M2 p' ltac:(lia)). eapply Rle_trans; [exact M2|]. apply Req_le, E. intro x. rewrite Hp'.
      replace (-1 * (-1 * x + 0) + 0) with x by ring. ring. }
  assert (W : map (PolyAt c') (rev (map (fun v => -1 * v + 0) s)) = rev (map (fun u => -1 * u + INR (n + 1)) (map (PolyAt c) s))).
  { rewrite V, !map_rev, !map_map. f_equal. apply map_ext. intro x. rewrite Hq. ring. }
  assert (X : np_sort (map (PolyAt c') (rev (map (fun v => -1 * v + 0) s))) = rev (map (fun u => INR n + 1 - u) (np_sort (map (PolyAt c) s)))).
  { rewrite W. generalize (map (PolyAt c) s) as z. intro z. transitivity (map (fun v => 1 * v + INR (n + 1)) (np_sort (map (fun v => -1 * v + 0) z))).
    - rewrite <- np_sort_affine by lra. apply np_sort_perm_R. rewrite <- Permutation_rev, map_map. apply Permutation_refl'. apply map_ext. intro. ring.
    - rewrite np_sort_neg, map_rev, map_map. f_equal. apply map_ext. intro. rewrite plus_INR. cbn. ring. }
  split; [exact X|]. rewrite X. clear.
  assert (GA : forall l x, Gaps (l ++ [x]) = match last_opt l with Some y => Gaps l ++ [x - y] | None => [] end).
  { induction l as [|y l IH]; intro x; [reflexivity|]. destruct l as [|z l]; [reflexivity|].
    change (Gaps ((y :: z :: l) ++ [x])) with ((z - y) :: Gaps ((z :: l) ++ [x])). change (Gaps (y :: z :: l)) with ((z - y) :: Gaps (z :: l)).
    rewrite IH. unfold last_opt. cbn [length]. replace (S (S (length l)) - 1)%nat with (S (length l)) by lia.
    replace (S (length l) - 1)%nat with (length l) by lia. cbn [nth_error]. 
    destruct (nth_error (z :: l) (length l)) eqn:EN; [reflexivity|]. apply nth_error_None in EN. cbn in EN. lia. }
  generalize (np_sort (map (PolyAt c) s)) as l. induction l as [|x l IH]; [reflexivity|]. cbn [map rev]. rewrite GA.
  destruct l as [|y l]; [reflexivity|]. cbn [map rev] in *. unfold last_opt. rewrite app_length. cbn [length].
  replace (length _ + 1 - 1)%nat with (length (rev (map (fun u => INR n + 1 - u) l))) by lia.
  rewrite nth_error_app2, Nat.sub_diag by lia. cbn [nth_error]. rewrite IH. change (Gaps (x :: y :: l)) with ((y - x) :: Gaps (y :: l)). cbn [rev]. f_equal. f_equal. ring.
Qed.

(** C101. Spline smoothing with a given smoothing value [s]: the unfolded values stay within [sqrt (s (1 + tol))] of
    [1, ..., n], and the spacings' squared distances from one add up to at most [4 s (1 + tol)], whatever the spectrum and
    however many levels it has. *)
Theorem C101_pinned : forall tol eigs kind a deg s r, SmoothsWithin tol uspline -> Denotes a MSpline ->
  eig_unfold eigs kind (Some a) deg (AFloat s) false = Ok r ->
  (forall i u, nth_error (u_values r) i = Some u -> (u - INR (i + 1)) ^ 2 <= s * (1 + tol)) /\
  Rsum (map (fun g => (g - 1) ^ 2) (Gaps (u_values r))) <= 4 * (s * (1 + tol)).
Proof.
  intros tol eigs kind a deg s r HS Ha. rewrite (eig_unfold_denotes _ _ _ _ _ _ _ _ eigs kind a MSpline) by exact Ha.
  unfold unfold_fit. destruct (fit _ _ _ _ false true) as [[[u st] cl]|] eqn:E; [|discriminate]. cbn [bind MemberName maybe_detrend] in *.
  intros [= <-]. cbn [u_values unfolded_init].
  destruct (C98_curves (np_sort eigs) deg (AFloat s) true u st cl) as [_ [HP _]].
  destruct (HP E) as [k [s' [f [-> [_ [[[= <-]|[[=] _]] [Hf ->]]]]]]].
  rewrite np_sort_length in Hf. apply HS in Hf. rewrite Sse_ssq in Hf. set (n := length eigs) in *.
  assert (HL : length (map f (np_sort eigs)) = n) by (rewrite map_length; apply np_sort_length).
  set (l := map f (np_sort eigs)) in *.
  pose proof (ssq_sort l (Staircase n)) as HX. rewrite Staircase_length in HX. specialize (HX HL (Staircase_sorted n)).
  assert (HL' : length (np_sort l) = n) by now rewrite np_sort_length.
  split.
  - intros i v Hv. assert (i < n)%nat by (rewrite <- HL'; apply nth_error_Some; congruence).
    eapply Rle_trans; [|eapply Rle_trans; [exact HX|exact Hf]].
    pose proof (Sse_point (fun x => x) (np_sort l) (Staircase n) i v (INR (i + 1)) Hv (Staircase_nth n i H)) as P.
    rewrite Sse_ssq, map_id in P. exact P.
  - pose proof (ssq_gaps (np_sort l) 1) as G. rewrite HL' in G. fold (Staircase n) in G. lra.
Qed.
(** So with the default smoothing value 1.4 and FITPACK's tolerance, any spectrum of more than 1000 levels unfolds to spacings
    whose mean squared distance from one is below 0.006, whereas the package's reference value for GOE spectra is 0.286. *)
Theorem C101_default_refuted : forall eigs kind a deg r, SmoothsWithin (1 / 1000) uspline -> Denotes a MSpline ->
  (1000 < Z.of_nat (length eigs))%Z ->
  eig_unfold eigs kind (Some a) deg (AFloat (14 / 10)) false = Ok r ->
  Rmean (map (fun g => (g - 1) ^ 2) (Gaps (u_values r))) < 6 / 1000.
Proof.
  intros eigs kind a deg r HS Ha Hn H. destruct (C101_pinned _ _ _ _ _ _ _ HS Ha H) as [_ HG].
  assert (HL : length (u_values r) = length eigs).
  { eapply (eig_unfold_shape emd exp polyfit uspline fit_exp fit_gompertz smooth_g smooth_p); [|exact H].
    intros x [= <-] m ->. destruct Ha as [[= ->]|[=]]. now exists MSpline. }
  assert (GL : forall l : list R, length (Gaps l) = (length l - 1)%nat).
  { induction l as [|x [|y l] IH]; auto. change (Gaps (x :: y :: l)) with ((y - x) :: Gaps (y :: l)). cbn [length] in *. rewrite IH. lia. }
  unfold Rmean. rewrite map_length, GL, HL.
  assert (1000 <= INR (length eigs - 1)). { rewrite INR_IZR_INZ. apply IZR_le. lia. }
  apply Rmult_lt_reg_r with (INR (length eigs - 1)); [lra|]. unfold Rdiv at 1. rewrite Rmult_assoc, Rinv_l, Rmult_1_r by lra. nra.
Qed.

End Fit.
Print Assumptions C98_steps.
Print Assumptions C98_curves.
Print Assumptions C99_exact.
Print Assumptions C99_mean.
Print Assumptions C99_errors_fall.
Print Assumptions C100_affine.
Print Assumptions C100_mirror.
Print Assumptions C101_pinned.
Print Assumptions C101_default_refuted.

(** ** Examples *)
(** Two equal eigenvalues: the steps are 1, 2, 3 although two eigenvalues are already counted at the first of them. *)
Example C98_case :
  let eigs := [1; 1; 4] in
  (exists u cl, fit (fun _ => Raise ValueError) exp (fun _ _ _ => Ok [2; 0; 1]) (fun _ _ _ _ => Raise ValueError) (fun _ _ _ => Raise ValueError)
      (fun _ _ _ => Raise ValueError) eigs (SMember "Polynomial") (DInt 7) ANoneS false true = Ok (u, [1; 2; 3], cl) /\ u = [3; 3; 18]) /\
  CountLe eigs 1 = 2%Z /\ CountLe eigs 4 = 3%Z /\ Ascending eigs.
Proof.
  cbv zeta. split; [|splits].
  - eexists. eexists. split.
    + unfold M_Smooth.fit. cbn [validate_args smoother_enum_arg validate bind String.eqb Ascii.eqb Bool.eqb is_member Z.ltb Z.compare Pos.compare Pos.compare_cont maybe_detrend].
      rewrite fit_steps_R. unfold Staircase. cbn [length seq map INR]. repeat f_equal; lra.
    + cbn [map]. rewrite !polyval_R, !PolyAt_horner. cbn [horner]. repeat f_equal; lra.
  - cbn [CountLe]. unfold nle. cbn. repeat (destruct (Rle_dec _ _); try lra). reflexivity.
  - cbn [CountLe]. unfold nle. cbn. repeat (destruct (Rle_dec _ _); try lra). reflexivity.
  - apply StronglySorted_R. repeat constructor; lra.
Qed.

(** A table of least squares cubics for five levels at 0, 1, 2, 3, 5; the same levels doubled and moved by one; and the same
    levels mirrored; for five equally spaced levels; and the quartic through the first five points.  No other question is answered. *)
Definition xs0 : list R := [0; 1; 2; 3; 5].
Definition xs1 : list R := [1; 3; 5; 7; 11].
Definition xs2 : list R := [-5; -3; -2; -1; 0].
Definition xs3 : list R := [1; 3; 5; 7; 9].
Definition cs0 : list R := [373/371; 1969/2226; 173/1484; -17/636].
Definition cs1 : list R := [7071/11872; 13319/35616; 465/11872; -17/5088].
Definition cs2 : list R := [1853/371; 1969/2226; -173/1484; -17/636].
Definition cs3 : list R := [1/2; 1/2; 0; 0].
Definition qs0 : list R := [1; 21/20; -11/120; 1/20; -1/120].
Definition cubic_table (xs ys : list R) (d : Z) : result (list R) :=
  if Z.eqb d 3 then
    if list_eq_dec Req_EM_T ys (Staircase 5) then
      if list_eq_dec Req_EM_T xs xs0 then Ok cs0 else
      if list_eq_dec Req_EM_T xs xs1 then Ok cs1 else
      if list_eq_dec Req_EM_T xs xs2 then Ok cs2 else
      if list_eq_dec Req_EM_T xs xs3 then Ok cs3 else Raise ValueError
    else Raise ValueError
  else if Z.eqb d 4 then
    if list_eq_dec Req_EM_T ys (Staircase 5) then
      if list_eq_dec Req_EM_T xs xs0 then Ok qs0 else Raise ValueError
    else Raise ValueError
  else Raise ValueError.
Lemma short_cubic c : (length c <= 4)%nat -> exists p q r s, forall x, PolyAt c x = p + q * x + r * (x * x) + s * (x * x * x).
Proof.
  intro H. exists (nth 0 c 0), (nth 1 c 0), (nth 2 c 0), (nth 3 c 0). intro x. rewrite PolyAt_horner.
  destruct c as [|a [|b [|e [|f [|g t]]]]]; cbn [nth horner]; try ring. cbn [length] in H. lia.
Qed.
Lemma cubic_table_ls : LeastSquares cubic_table.
Proof.
  intros xs ys d c. unfold cubic_table. destruct (d =? 3)%Z eqn:Ed.
  2: { clear Ed. destruct (d =? 4)%Z eqn:Ed; [|discriminate]. apply Z.eqb_eq in Ed. subst d.
    destruct (list_eq_dec Req_EM_T ys (Staircase 5)) as [->|]; [|discriminate].
    destruct (list_eq_dec Req_EM_T xs xs0) as [->|]; [|discriminate]. intros [= <-]. split; [cbn; lia|]. intros c' _.
    rewrite (Sse_exact (PolyAt qs0)); [apply Sse_nonneg|]. unfold xs0, qs0, Staircase. cbn [map seq INR]. rewrite !PolyAt_horner. cbn [horner].
    repeat (apply f_equal2; [lra|]). reflexivity. }
  apply Z.eqb_eq in Ed. subst d.
  destruct (list_eq_dec Req_EM_T ys (Staircase 5)) as [->|]; [|discriminate].
  assert (K : forall (p : R -> R) xs c', (forall q0 q1 q2 q3, Sse (fun x => q0 + q1 * x + q2 * (x * x) + q3 * (x * x * x)) xs (Staircase 5)
      = Sse p xs (Staircase 5) + Sse (fun x => q0 + q1 * x + q2 * (x * x) + q3 * (x * x * x) - p x) xs [0; 0; 0; 0; 0]) ->
      (Z.of_nat (length c') <= 3 + 1)%Z -> Sse p xs (Staircase 5) <= Sse (PolyAt c') xs (Staircase 5)).
  { intros p xs' c' He Hl. destruct (short_cubic c' ltac:(lia)) as [q0 [q1 [q2 [q3 Hq]]]]. rewrite (Sse_ext (PolyAt c') _ _ _ Hq), He.
    match goal with |- _ <= _ + ?z => pose proof (Sse_nonneg (fun x => q0 + q1 * x + q2 * (x * x) + q3 * (x * x * x) - p x) xs' [0; 0; 0; 0; 0]) end. lra. }
  assert (G : forall c xs, (forall q0 q1 q2 q3, Sse (fun x => q0 + q1 * x + q2 * (x * x) + q3 * (x * x * x)) xs (Staircase 5)
      = Sse (PolyAt c) xs (Staircase 5) + Sse (fun x => q0 + q1 * x + q2 * (x * x) + q3 * (x * x * x) - PolyAt c x) xs [0; 0; 0; 0; 0]) ->
      (Z.of_nat (length c) <= 3 + 1)%Z -> (Z.of_nat (length c) <= 3 + 1)%Z /\ forall c', (Z.of_nat (length c') <= 3 + 1)%Z ->
      Sse (PolyAt c) xs (Staircase 5) <= Sse (PolyAt c') xs (Staircase 5)).
  { intros c0 xs' He Hl. split; auto. }
  repeat (match goal with |- (if list_eq_dec Req_EM_T xs ?l then _ else _) = _ -> _ => destruct (list_eq_dec Req_EM_T xs l) as [->|] end; [intros [= <-]; apply G; [|cbn; lia]; intros q0 q1 q2 q3; unfold Staircase; cbn [Sse seq map INR xs0 xs1 xs2 xs3]; rewrite !PolyAt_horner; unfold cs0, cs1, cs2, cs3; cbn [horner]; field|]).
  discriminate.
Qed.
Notation unfold_table := (eig_unfold (fun _ => Raise ValueError) exp cubic_table (fun _ _ _ _ => Raise ValueError) (fun _ _ _ => Raise ValueError)
  (fun _ _ _ => Raise ValueError) (fun _ x => x) (fun _ x => x)).
Lemma unfold_table_ok eigs s c : np_sort eigs = s -> cubic_table s (Staircase (length eigs)) 3 = Ok c ->
  exists r, unfold_table eigs None (Some (SName "poly")) (DInt 3) ANoneS false = Ok r /\ u_values r = np_sort (map (PolyAt c) s).
Proof.
  intros Hs Hc. rewrite (eig_unfold_denotes _ _ _ _ _ _ _ _ eigs None (SName "poly") MPoly) by now right.
  unfold unfold_fit, M_Smooth.fit. rewrite Hs, fit_steps_R. rewrite <- (np_sort_length eigs), Hs in Hc.
  cbn [validate_args smoother_enum_arg validate bind String.eqb Ascii.eqb Bool.eqb is_member MemberName Z.ltb Z.compare Pos.compare Pos.compare_cont maybe_detrend].
  rewrite Hc. cbn [bind]. eexists. split; [reflexivity|]. cbn [u_values unfolded_init]. f_equal. apply map_ext. intro x. apply polyval_R.
Qed.
(** The values of the least squares cubic: one to five, displaced by multiples of 1/742. *)
Definition us0 : list R := [1 + 4/742; 2 - 15/742; 3 + 20/742; 4 - 10/742; 5 + 1/742].
Example C100_case : LeastSquares cubic_table /\
  (exists r, unfold_table [3; 0; 5; 1; 2] None (Some (SName "poly")) (DInt 3) ANoneS false = Ok r /\ u_values r = us0) /\
  (exists r, unfold_table (map (fun v => 2 * v + 1) [3; 0; 5; 1; 2]) None (Some (SName "poly")) (DInt 3) ANoneS false = Ok r /\ u_values r = us0) /\
  (exists r, unfold_table (map Ropp [3; 0; 5; 1; 2]) None (Some (SName "poly")) (DInt 3) ANoneS false = Ok r /\
     u_values r = rev (map (fun u => INR 5 + 1 - u) us0)) /\
  Rmean us0 = 3.
Proof.
  Ltac list_R := repeat match goal with |- _ :: _ = _ :: _ => apply f_equal2; [lra|] end; try reflexivity.
  Ltac sort_R := cbn [np_sort insert_by]; repeat (rewrite np_le_R; match goal with |- context [Rle_dec ?a ?b] => destruct (Rle_dec a b); try (exfalso; lra) end; cbn [insert_by]); try reflexivity.
  assert (T0 : cubic_table xs0 (Staircase 5) 3 = Ok cs0).
  { unfold cubic_table. cbn [Z.eqb Pos.eqb]. destruct (list_eq_dec Req_EM_T (Staircase 5) _); [|congruence].
    destruct (list_eq_dec Req_EM_T xs0 xs0); [reflexivity|congruence]. }
  assert (T1 : cubic_table xs1 (Staircase 5) 3 = Ok cs1).
  { unfold cubic_table. cbn [Z.eqb Pos.eqb]. destruct (list_eq_dec Req_EM_T (Staircase 5) _); [|congruence].
    destruct (list_eq_dec Req_EM_T xs1 xs0) as [E|]; [injection E; intros; lra|].
    destruct (list_eq_dec Req_EM_T xs1 xs1); [reflexivity|congruence]. }
  assert (T2 : cubic_table xs2 (Staircase 5) 3 = Ok cs2).
  { unfold cubic_table. cbn [Z.eqb Pos.eqb]. destruct (list_eq_dec Req_EM_T (Staircase 5) _); [|congruence].
    destruct (list_eq_dec Req_EM_T xs2 xs0) as [E|]; [injection E; intros; lra|].
    destruct (list_eq_dec Req_EM_T xs2 xs1) as [E|]; [injection E; intros; lra|].
    destruct (list_eq_dec Req_EM_T xs2 xs2); [reflexivity|congruence]. }
  assert (S0 : np_sort [3; 0; 5; 1; 2] = xs0) by (unfold xs0; sort_R).
  assert (S1 : np_sort (map (fun v => 2 * v + 1) [3; 0; 5; 1; 2]) = xs1).
  { replace (map _ _) with [7; 1; 11; 3; 5] by (cbn [map]; list_R). unfold xs1. sort_R. }
  assert (S2 : np_sort (map Ropp [3; 0; 5; 1; 2]) = xs2).
  { replace (map _ _) with [-3; 0; -5; -1; -2] by (cbn [map]; list_R). unfold xs2. sort_R. }
  assert (U : np_sort us0 = us0) by (unfold us0; sort_R).
  split; [exact cubic_table_ls|]. splits.
  - destruct (unfold_table_ok [3; 0; 5; 1; 2] xs0 cs0 S0 T0) as [r [H1 H2]]. exists r. split; [exact H1|]. rewrite H2. rewrite <- U. f_equal.
    unfold xs0, us0, cs0. cbn [map]. rewrite !PolyAt_horner. cbn [horner]. list_R.
  - destruct (unfold_table_ok (map (fun v => 2 * v + 1) [3; 0; 5; 1; 2]) xs1 cs1 S1 T1) as [r [H1 H2]]. exists r. split; [exact H1|]. rewrite H2.
    rewrite <- U. f_equal.
    unfold xs1, us0, cs1. cbn [map]. rewrite !PolyAt_horner. cbn [horner]. list_R.
  - destruct (unfold_table_ok (map Ropp [3; 0; 5; 1; 2]) xs2 cs2 S2 T2) as [r [H1 H2]]. exists r. split; [exact H1|]. rewrite H2.
    replace (map (PolyAt cs2) xs2) with [1 - 1/742; 2 + 10/742; 3 - 20/742; 4 + 15/742; 5 - 4/742].
    2: { unfold xs2, cs2. cbn [map]. rewrite !PolyAt_horner. cbn [horner]. list_R. }
    transitivity [1 - 1/742; 2 + 10/742; 3 - 20/742; 4 + 15/742; 5 - 4/742]; [sort_R|].
    unfold us0. cbn [map rev app INR]. list_R.
  - unfold Rmean, us0. cbn [Rsum length INR]. field.
Qed.
(** Equally spaced levels have a linear counting function, so they unfold to one, two, three, ... *)
Example C99_case : map (PolyAt [1/2; 1/2]) xs3 = Staircase (length xs3) /\
  exists r, unfold_table [9; 1; 7; 5; 3] None (Some (SName "poly")) (DInt 3) ANoneS false = Ok r /\ u_values r = Staircase 5.
Proof.
  assert (E : map (PolyAt [1/2; 1/2]) xs3 = Staircase (length xs3)).
  { unfold xs3, Staircase. cbn [map seq length INR]. rewrite !PolyAt_horner. cbn [horner]. repeat (apply f_equal2; [lra|]). reflexivity. }
  split; [exact E|].
  assert (S : np_sort [9; 1; 7; 5; 3] = xs3) by (unfold xs3; sort_R).
  assert (T : cubic_table xs3 (Staircase 5) 3 = Ok cs3).
  { unfold cubic_table. cbn [Z.eqb Pos.eqb]. destruct (list_eq_dec Req_EM_T (Staircase 5) _); [|congruence].
    destruct (list_eq_dec Req_EM_T xs3 xs0) as [A|]; [injection A; intros; lra|].
    destruct (list_eq_dec Req_EM_T xs3 xs1) as [A|]; [injection A; intros; lra|].
    destruct (list_eq_dec Req_EM_T xs3 xs2) as [A|]; [injection A; intros; lra|].
    destruct (list_eq_dec Req_EM_T xs3 xs3); [reflexivity|congruence]. }
  destruct (unfold_table_ok [9; 1; 7; 5; 3] xs3 cs3 S T) as [r [H1 _]]. exists r. split; [exact H1|].
  eapply (C99_exact _ cubic_table _ _ _ _ _ [9; 1; 7; 5; 3] xs3 [1/2; 1/2] None (SName "poly") 3); try exact H1; try exact E.
  - apply cubic_table_ls.
  - now right.
  - rewrite <- S. apply np_sort_perm.
  - rewrite <- S. apply np_sort_ascending, notnan_R.
  - cbn. lia.
Qed.
(** Degrees 4 and 3 for the same levels: the errors are 0 and 1/3710. *)
Example C99_errors_case : exists c4 c3,
  fit_all (fun _ => Raise ValueError) exp (fun _ x => x) cubic_table (fun _ _ _ _ => Raise ValueError) (fun _ _ _ => Raise ValueError)
    (fun _ _ _ => Raise ValueError) (fun _ => ""%string) (fun _ => ""%string) [] xs0 [4; 3]%Z (SList []) [3]%Z false false = Ok [c4; c3] /\
  c_msqe c4 = 0 /\ c_msqe c3 = 1 / 3710.
Proof.
  assert (T4 : cubic_table xs0 (Staircase (length xs0)) 4 = Ok qs0).
  { unfold cubic_table. cbn [Z.eqb Pos.eqb]. destruct (list_eq_dec Req_EM_T (Staircase _) _) as [|A]; [|exfalso; now apply A].
    destruct (list_eq_dec Req_EM_T xs0 xs0); [reflexivity|congruence]. }
  assert (T3 : cubic_table xs0 (Staircase (length xs0)) 3 = Ok cs0).
  { unfold cubic_table. cbn [Z.eqb Pos.eqb]. destruct (list_eq_dec Req_EM_T (Staircase _) _) as [|A]; [|exfalso; now apply A].
    destruct (list_eq_dec Req_EM_T xs0 xs0); [reflexivity|congruence]. }
  unfold fit_all, M_Smooth.fit. cbn [for_each list_prod].
  cbn [validate_args smoother_enum_arg validate bind String.eqb Ascii.eqb Bool.eqb is_member MemberName Z.ltb Z.compare Pos.compare Pos.compare_cont maybe_detrend].
  rewrite fit_steps_R, T4, T3. cbn [bind]. unfold make_column, np_sub. rewrite !map_length, !Staircase_length, Nat.eqb_refl. cbn [bind app].
  eexists. eexists. split; [reflexivity|]. cbn [c_msqe].
  rewrite !msqe_Sse by reflexivity. split.
  - rewrite (Sse_ext _ (PolyAt qs0)) by (intro; apply polyval_R). rewrite Sse_exact; [unfold Rdiv; ring|].
    unfold xs0, qs0, Staircase. cbn [map seq length INR]. rewrite !PolyAt_horner. cbn [horner]. repeat (apply f_equal2; [lra|]). reflexivity.
  - rewrite (Sse_ext _ (PolyAt cs0)) by (intro; apply polyval_R). unfold xs0, cs0, Staircase. cbn [Sse map seq length INR].
    rewrite !PolyAt_horner. cbn [horner]. field.
Qed.

(** A spline routine that interpolates: the value tabulated at the first occurrence of [x]. *)
Fixpoint lookup (xs ys : list R) (x : R) : R :=
  match xs, ys with a :: xs', b :: ys' => if Req_EM_T x a then b else lookup xs' ys' x | _, _ => 0 end.
Definition interpolate (xs ys : list R) (k : Z) (s : R) : result (R -> R) :=
  if Rle_dec 0 s then if ListDec.NoDup_dec Req_EM_T xs then Ok (lookup xs ys) else Raise ValueError else Raise ValueError.
Lemma lookup_exact xs : forall ys, NoDup xs -> length xs = length ys -> map (lookup xs ys) xs = ys.
Proof.
  induction xs as [|a xs IH]; intros [|b ys] HN HL; cbn [length] in HL; try discriminate; auto. inversion_clear HN.
  cbn [map lookup]. destruct (Req_EM_T a a); [|congruence]. f_equal. transitivity (map (lookup xs ys) xs).
  - apply map_ext_in. intros x Hx. destruct (Req_EM_T x a); [subst; contradiction|reflexivity].
  - apply IH; auto.
Qed.
Lemma interpolate_within : SmoothsWithin (1 / 1000) interpolate.
Proof.
  intros xs ys k s f. unfold interpolate. destruct (Rle_dec 0 s); [|discriminate]. destruct (ListDec.NoDup_dec _ _) as [HN|]; [|discriminate].
  intros [= <-]. enough (Sse (lookup xs ys) xs ys = 0) by lra. clear - HN. revert ys.
  induction xs as [|a xs IH]; intros [|b ys]; auto. inversion_clear HN. cbn [Sse lookup]. destruct (Req_EM_T a a); [|congruence].
  replace (Sse _ xs ys) with (Sse (lookup xs ys) xs ys).
  - rewrite IH by assumption. ring.
  - rewrite !Sse_ssq. f_equal. apply map_ext_in. intros x Hx. destruct (Req_EM_T x a); [subst; contradiction|reflexivity].
Qed.
(** The 2000 levels 1, 4, 9, ... with the default smoothing. *)
Example C101_case : let eigs := map (fun v => v * v) (Staircase (Z.to_nat 2000)) in SmoothsWithin (1 / 1000) interpolate /\
  (1000 < Z.of_nat (length eigs))%Z /\
  exists r, eig_unfold (fun _ => Raise ValueError) exp (fun _ _ _ => Raise ValueError) interpolate (fun _ _ _ => Raise ValueError) (fun _ _ _ => Raise ValueError)
    (fun _ x => x) (fun _ x => x) eigs None (Some (SMember "Spline")) (DInt 3) (AFloat (14 / 10)) false = Ok r /\ u_values r = Staircase (length eigs).
Proof.
  cbv zeta. set (n := Z.to_nat 2000). assert (Hn : Z.of_nat n = 2000%Z) by (apply Z2Nat.id; lia). clearbody n.
  split; [apply interpolate_within|]. rewrite map_length, Staircase_length. split; [lia|].
  rewrite (eig_unfold_denotes _ _ _ _ _ _ _ _ _ None (SMember "Spline") MSpline) by now left.
  set (e := map (fun v => v * v) (Staircase n)).
  assert (Hs : StronglySorted Rlt e).
  { unfold e, Staircase. generalize 1%nat as k. clear. induction n as [|n IH]; intro k; cbn [seq map]; constructor; auto.
    apply Forall_forall. intros x Hx. rewrite map_map in Hx. apply in_map_iff in Hx as [j [<- Hj]]. apply in_seq in Hj.
    pose proof (pos_INR k). assert (INR k < INR j) by (apply lt_INR; lia). apply Rmult_le_0_lt_compat; lra. }
  assert (Hl : length e = n) by (unfold e; now rewrite map_length, Staircase_length).
  assert (HN : NoDup e).
  { clear - Hs. induction Hs as [|x t Ht IH Hx]; constructor; auto. intro HI. rewrite Forall_forall in Hx. specialize (Hx x HI). lra. }
  assert (Hid : np_sort e = e).
  { apply np_sort_id, Ascending_NpLe; [apply notnan_R|]. apply StronglySorted_R. clear - Hs. induction Hs as [|x t Ht IH Hx]; constructor; auto.
    eapply Forall_impl; [|exact Hx]. intros a Ha. cbn in *. lra. }
  unfold unfold_fit, M_Smooth.fit. rewrite Hid, fit_steps_R, Hl.
  cbn [validate_args smoother_enum_arg validate bind String.eqb Ascii.eqb Bool.eqb is_member MemberName Z.ltb Z.compare Pos.compare Pos.compare_cont maybe_detrend].
  unfold interpolate. destruct (Rle_dec 0 (14 / 10)); [|lra]. destruct (ListDec.NoDup_dec Req_EM_T e); [|contradiction]. cbn [bind].
  eexists. split; [reflexivity|]. cbn [u_values unfolded_init]. rewrite lookup_exact by (auto; now rewrite Staircase_length).
  apply np_sort_id, Ascending_NpLe; [apply notnan_R|]. apply StronglySorted_R, Staircase_sorted.
Qed.
