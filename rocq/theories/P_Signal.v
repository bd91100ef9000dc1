(** Proofs about signal cleaning, detrending and exponentials. *)
From Coq Require Import String List ZArith Bool Arith Lia Reals Lra Sorting.Permutation.
From Verif Require Import Base S_Order S_EigVals S_Trim M_Step M_EigVals M_Enum M_Quad M_Compare M_Signal S_Quad S_Loops S_Compare S_Signal
  P_Order P_Step P_EigVals P_TrimStat P_Quad P_Ols P_Compare P_Loops.
Import ListNotations.
Local Notation length := List.length.
Local Open Scope R_scope.

Lemma rows_concat {F} c : forall (rs : list (list F)), Forall (fun r => length r = c) rs -> rows (length rs) c (concat rs) = rs.
Proof.
  induction 1 as [|r rs H _ IH]; [reflexivity|]. cbn [length rows concat]. rewrite <- H. rewrite firstn_app, Nat.sub_diag, firstn_all, firstn_O, app_nil_r.
  rewrite skipn_app, skipn_all, Nat.sub_diag. cbn [skipn app]. rewrite H, IH. reflexivity.
Qed.
Lemma np_var_R (l : list R) : np_var l = PopVar l.
Proof. unfold np_var, PopVar. rewrite !nmean_R. unfold square. cbn [nmul nsub Num_R]. rewrite Rmean_INR, map_length. reflexivity. Qed.
Lemma np_norm_R (l : list R) : np_norm sqrt l = Norm2 l.
Proof. unfold np_norm, Norm2. rewrite nsum_R. reflexivity. Qed.
Lemma row_mask_R thr (row : list R) : row_mask sqrt thr row = true <-> thr < PopVar row /\ thr < Norm2 row.
Proof.
  unfold row_mask. rewrite np_var_R, np_norm_R. cbv zeta. destruct (nle (Norm2 row) thr) eqn:E1.
  - split; [discriminate|]. intros (_ & H). apply nle_R_true in E1. lra.
  - assert (H1 : thr < Norm2 row) by (destruct (Rle_or_lt (Norm2 row) thr) as [G|G]; [apply nle_R_true in G; congruence|exact G]).
    destruct (nle (PopVar row) thr) eqn:E2.
    + split; [discriminate|]. intros (H & _). apply nle_R_true in E2. lra.
    + assert (H2 : thr < PopVar row) by (destruct (Rle_or_lt (PopVar row) thr) as [G|G]; [apply nle_R_true in G; congruence|exact G]). split; auto.
Qed.
Lemma mask_filter {A} (f g : A -> bool) l : (forall x, In x l -> f x = g x) -> map snd (filter (fun p => fst p) (combine (map f l) l)) = filter g l.
Proof.
  induction l as [|x l IH]; intros H; [reflexivity|]. cbn [map combine filter fst]. rewrite <- (H x) by now left.
  destruct (f x); cbn [map snd]; rewrite IH; auto; intros; apply H; now right.
Qed.

(** ** Linear detrending *)
Lemma arange_R n : arange n = Times n.
Proof. unfold arange, Times. apply map_ext. intros i. cbn [nofZ Num_R]. now rewrite INR_IZR_INZ. Qed.
Lemma Times_length n : length (Times n) = n.
Proof. unfold Times. now rewrite map_length, seq_length. Qed.
Lemma Times_01 n : (2 <= n)%nat -> In 0 (Times n) /\ In 1 (Times n).
Proof. intros H. split; unfold Times; apply in_map_iff; [exists 0%nat|exists 1%nat]; split; try reflexivity; apply in_seq; lia. Qed.
Lemma Times_var n : (2 <= n)%nat -> Sxy (Times n) (Times n) (Rmean (Times n)) (Rmean (Times n)) <> 0.
Proof.
  intros H E. apply Sxx_zero in E. rewrite Forall_forall in E. destruct (Times_01 n H) as (H0 & H1). pose proof (E _ H0). pose proof (E _ H1). lra.
Qed.
Lemma Residuals_alt x y a b : map (fun p : R * R => fst p - snd p) (combine y (map (fun t => a * t + b) x)) = Residuals x y a b.
Proof. unfold Residuals. revert y. induction x as [|u x IH]; intros [|v y]; try reflexivity. cbn [map combine]. now rewrite IH. Qed.
Lemma Residuals_length x y a b : length x = length y -> length (Residuals x y a b) = length y.
Proof. intros H. unfold Residuals. rewrite map_length, combine_length. lia. Qed.

Section Linear.
Variable stats : list R -> list R -> R * R * R.
Lemma linregress_R x y : x <> [] -> length x = length y -> Sxy x x (Rmean x) (Rmean x) <> 0 ->
  exists r, linregress stats x y = Ok (slope x y :: intercept x y (slope x y) :: r) /\ length r = 3%nat.
Proof.
  intros Hx Hl HV. unfold linregress. destruct x as [|u x0] eqn:Ex; [congruence|]. destruct y as [|v y0] eqn:Ey; [discriminate|]. rewrite <- Ex, <- Ey in *.
  replace (Nat.eqb (length x) 0) with false by (rewrite Ex; reflexivity). replace (Nat.eqb (length y) 0) with false by (rewrite Ey; reflexivity). cbn [orb].
  rewrite Hl, Nat.eqb_refl. cbn [negb]. eexists. split; [|shelve].
  assert (E1 : ndiv (nmean (map (fun p : R * R => nmul (nsub (fst p) (nmean x)) (nsub (snd p) (nmean y))) (combine x y))) (nmean (map (fun v => square (nsub v (nmean x))) x)) = slope x y).
  { rewrite slope_R. destruct (Req_EM_T _ _) as [E|E]; [contradiction|]. rewrite !nmean_R. unfold square. cbn [nsub nmul ndiv Num_R].
    rewrite (Rmean_INR (map _ (combine x y))), (Rmean_INR (map _ x)), !map_length, combine_length, <- Hl, Nat.min_id.
    replace (Rsum (map (fun v => (v - Rmean x) * (v - Rmean x)) x)) with (Sxy x x (Rmean x) (Rmean x)).
    - fold (Sxy x y (Rmean x) (Rmean y)). field. split; [exact E|]. apply not_0_INR; rewrite Ex; discriminate.
    - generalize (Rmean x). intros m. unfold Sxy. clear. induction x as [|a x IH]; [reflexivity|]. cbn [combine map]. now rewrite !Rsum_cons, IH. }
  cbv zeta. rewrite E1, intercept_R, !nmean_R. cbn [nsub nmul Num_R]. reflexivity.
  Unshelve. reflexivity.
Qed.
Lemma detrend_linear_R emd polyfit2 (y : list R) m : (2 <= length y)%nat -> m = PStr "linear" \/ m = PMember "Linear" ->
  detrend stats emd polyfit2 y m = Ok (Residuals (Times (length y)) y (slope (Times (length y)) y) (intercept (Times (length y)) y (slope (Times (length y)) y))).
Proof.
  intros Hn Hm. unfold detrend. assert (E : M_Enum.validate DetrendMethod m = Ok (PMember "Linear")) by (destruct Hm as [->| ->]; reflexivity). rewrite E. cbn [bind].
  rewrite arange_R. destruct (linregress_R (Times (length y)) y) as (r & -> & _).
  - intros E0. apply (f_equal (@List.length R)) in E0. rewrite Times_length in E0. cbn in E0. lia.
  - apply Times_length.
  - now apply Times_var.
  - change (String.eqb "Linear" "EMD") with false. change (String.eqb "Linear" "Linear") with true. cbn [bind firstn]. unfold np_minus. rewrite map_length, Times_length, Nat.eqb_refl.
    cbn [nsub nadd nmul Num_R]. now rewrite Residuals_alt.
Qed.
End Linear.
Lemma ols_orth (x y : list R) : x <> [] -> length x = length y -> Sxy x x (Rmean x) (Rmean x) <> 0 ->
  Dot x (Residuals x y (slope x y) (intercept x y (slope x y))) = 0.
Proof.
  intros Hx Hl HV. assert (G : forall a b m n, Dot x (Residuals x y a b) = Sxy x y m n - a * Sxy x x m m + (n - a * m - b) * Rsum (map (fun v => v - m) x) + m * Rsum (Residuals x y a b)).
  { intros a b m n. unfold Dot, Residuals, Sxy. clear Hx HV. revert y Hl. induction x as [|u x' IH]; intros [|v y] Hl; try discriminate; [cbn; lra|].
    injection Hl as Hl. cbn [combine map]. rewrite !Rsum_cons, IH by exact Hl. cbn [fst snd]. ring. }
  rewrite (G _ _ (Rmean x) (Rmean y)), Rsum_dev, ols_sum_zero by assumption. rewrite slope_R. destruct (Req_EM_T _ _) as [E|E]; [contradiction|]. field. exact E.
Qed.
Lemma Dot_Sxy x r m : length x = length r -> Rsum r = 0 -> Dot x r = 0 -> Sxy x r m 0 = 0.
Proof.
  intros Hl H0 HD. assert (G : Sxy x r m 0 = Dot x r - m * Rsum r).
  { unfold Sxy, Dot. clear H0 HD. revert r Hl. induction x as [|u x IH]; intros [|v r] Hl; try discriminate; [cbn; lra|]. injection Hl as Hl. cbn [combine map]. rewrite !Rsum_cons, IH by exact Hl. cbn [fst snd]. ring. }
  rewrite G, H0, HD. ring.
Qed.
Lemma Residuals_00 x r : length x = length r -> Residuals x r 0 0 = r.
Proof. unfold Residuals. revert r. induction x as [|u x IH]; intros [|v r] H; try discriminate; [reflexivity|]. injection H as H. cbn [combine map fst snd]. rewrite IH by exact H. f_equal. ring. Qed.
Lemma Residuals_line x a b : Residuals x (map (fun t => a * t + b) x) a b = repeat 0 (length x).
Proof. unfold Residuals. induction x as [|u x IH]; [reflexivity|]. cbn [map combine length repeat fst snd]. rewrite IH. f_equal. ring. Qed.

(** ** Differences *)
Lemma set_nth_app' {A} (p : list A) x s y i : i = length p -> set_nth (p ++ x :: s) i y = p ++ y :: s.
Proof. intros ->. induction p as [|a p IH]; [reflexivity|]. cbn. now rewrite IH. Qed.
Lemma difference_loop_spec {F} {N : Num F} (s : list F) : forall n i acc rest, length acc = i -> (n <= length rest)%nat ->
  difference_loop s i n (acc ++ rest) = acc ++ map (fun k => nsub (nth (S k) s n0) (nth k s n0)) (seq i n) ++ skipn n rest.
Proof.
  induction n as [|n IH]; intros i acc rest Hi Hr; [reflexivity|]. destruct rest as [|x rest]; [cbn in Hr; lia|]. cbn [difference_loop seq map skipn].
  rewrite set_nth_app' by (symmetry; exact Hi). replace (acc ++ nsub (nth (S i) s n0) (nth i s n0) :: rest) with ((acc ++ [nsub (nth (S i) s n0) (nth i s n0)]) ++ rest) by (rewrite <- app_assoc; reflexivity).
  rewrite IH by (rewrite ?app_length; cbn in *; lia). rewrite <- app_assoc. reflexivity.
Qed.

(** ** Finite differences *)
Lemma nth_error_nth0 (l : list R) i : (i < length l)%nat -> nth_error l i = Some (nth i l 0).
Proof. intros H. now apply nth_error_nth'. Qed.
Lemma nth_map_R (f : R -> R) l i : (i < length l)%nat -> nth i (map f l) 0 = f (nth i l 0).
Proof. intros H. now apply nth_map_in. Qed.

(** ** Gompertz *)
Lemma gompertz_mono a b c x y : 0 < a -> 0 < b -> 0 < c -> x < y -> gompertz a b c x < gompertz a b c y.
Proof.
  intros Ha Hb Hc H. unfold gompertz. apply Rmult_lt_compat_l; [exact Ha|]. apply exp_increasing. rewrite <- !Ropp_mult_distr_l. apply Ropp_lt_contravar.
  apply Rmult_lt_compat_l; [exact Hb|]. apply exp_increasing. apply Ropp_lt_contravar. now apply Rmult_lt_compat_l.
Qed.
Lemma gompertz_range a b c x : 0 < a -> 0 < b -> 0 < gompertz a b c x < a.
Proof.
  intros Ha Hb. unfold gompertz. split; [apply Rmult_lt_0_compat; [exact Ha|apply exp_pos]|]. rewrite <- (Rmult_1_r a) at 2. apply Rmult_lt_compat_l; [exact Ha|].
  rewrite <- exp_0. apply exp_increasing. rewrite <- Ropp_mult_distr_l. apply Ropp_lt_gt_0_contravar. apply Rmult_lt_0_compat; [exact Hb|apply exp_pos].
Qed.
Lemma inverse_gompertz_nan a b c x : 0 < a -> 0 <= x -> inverse_gompertz a b c x = NaN.
Proof.
  intros Ha Hx. unfold inverse_gompertz. assert (E : np_log (np_log (Fin (- x / a))) = NaN).
  { unfold np_log at 2. assert (0 < / a) by now apply Rinv_0_lt_compat. assert (- x / a <= 0) by (unfold Rdiv; rewrite <- Ropp_mult_distr_l; assert (0 <= x * / a) by (apply Rmult_le_pos; lra); lra).
    destruct (Rlt_dec 0 (- x / a)); [lra|]. destruct (Req_EM_T _ _); reflexivity. }
  rewrite E. unfold ext_div. destruct (Req_EM_T c 0); [reflexivity|]. destruct (np_log (Fin b)); reflexivity.
Qed.
