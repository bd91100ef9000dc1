(** Property C113: the matrix [from_time_series] hands to the eigensolver, and the sizes for which it gets that far. *)
From Coq Require Import List ZArith Bool Arith Lia Reals Lra Sorting.Sorted Sorting.Permutation.
From Verif Require Import Base S_Order S_EigVals S_Series S_Cov M_EigVals M_Series M_Cov P_Order P_Step P_EigVals P_Series P_Cov.
Import ListNotations.
Local Open Scope R_scope.

Lemma Mean_ext x y t i : (forall k, (k < t)%nat -> x i k = y i k) -> Mean x t i = Mean y t i.
Proof. intro H. unfold Mean. rewrite (Sum_ext _ (y i)) by exact H. reflexivity. Qed.
Lemma Dev_ext x y t i k : (forall k, (k < t)%nat -> x i k = y i k) -> (k < t)%nat -> Dev x t i k = Dev y t i k.
Proof. intros H Hk. unfold Dev. rewrite (Mean_ext x y) by exact H. rewrite H by exact Hk. reflexivity. Qed.
Lemma SampleCov_ext x y t i j : (forall k, (k < t)%nat -> x i k = y i k) -> (forall k, (k < t)%nat -> x j k = y j k) -> SampleCov x t i j = SampleCov y t i j.
Proof. intros Hi Hj. unfold SampleCov. f_equal. apply Sum_ext. intros. rewrite (Dev_ext x y), (Dev_ext x y t j) by assumption. reflexivity. Qed.
Lemma Pearson_ext x y t i j : (forall k, (k < t)%nat -> x i k = y i k) -> (forall k, (k < t)%nat -> x j k = y j k) -> Pearson x t i j = Pearson y t i j.
Proof. intros Hi Hj. unfold Pearson. rewrite (SampleCov_ext x y), (SampleCov_ext x y t i i), (SampleCov_ext x y t j j) by assumption. reflexivity. Qed.
Lemma transpose_flat r c (d : list R) i k : (i < c)%nat -> (k < r)%nat -> flat r (transpose2 r c d) i k = nth (k * c + i) d 0.
Proof. intros Hi Hk. unfold flat, transpose2. rewrite (nth_table (fun j i => nth (i * c + j) d n0)) by assumption. reflexivity. Qed.

Lemma fts_raise ds tr (a : ndarray R) r c cov trim zeros axis e nN nT d : shape a = [r; c] ->
  ((axis = 1%Z /\ nN = r /\ nT = c /\ d = data a) \/ (axis = 0%Z /\ nN = c /\ nT = r /\ d = transpose2 r c (data a))) ->
  (if Nat.leb nN nT then ds nN nT d cov else tr nN nT d cov) = Raise e ->
  from_time_series sqrt ds tr a cov trim zeros axis = Raise e.
Proof.
  intros Hs Hax He. unfold from_time_series. rewrite Hs. destruct Hax as [(-> & -> & -> & ->)|(-> & -> & -> & ->)]; cbn -[Nat.leb transpose2]; rewrite He; reflexivity.
Qed.

(** C113, two or more series of two or more points: series and time points are taken along the axes that [time_axis] says, and exactly
    one matrix is handed to the eigensolver: of the N x N sample covariances or Pearson correlations when N <= T, otherwise the T x T
    matrix of the transposed product.  The outcome is the solver's: its exception, or all its values in ascending order. *)
Theorem C113_matrix : forall (ev : ndarray R -> result (list R)) a r c cov axis nN nT (x : nat -> nat -> R),
  shape a = [r; c] ->
  ((axis = 1%Z /\ nN = r /\ nT = c /\ forall i k, x i k = nth (i * c + k) (data a) 0) \/
   (axis = 0%Z /\ nN = c /\ nT = r /\ forall i k, x i k = nth (k * c + i) (data a) 0)) ->
  (2 <= nN)%nat -> (2 <= nT)%nat -> (cov = true \/ forall i, (i < nN)%nat -> Varies x nT i) ->
  exists A, shape A = [Nat.min nN nT; Nat.min nN nT] /\
    (forall i j, (i < Nat.min nN nT)%nat -> (j < Nat.min nN nT)%nat ->
       nth (i * Nat.min nN nT + j) (data A) 0 =
         (if (nN <=? nT)%nat then (if cov then SampleCov x nT i j else Pearson x nT i j)
          else Sum (fun s => if cov then Dev x nT s i * Dev x nT s j else Standard x nT s i * Standard x nT s j) nN / (INR nT - 1))) /\
    (forall trim zeros e, ev A = Raise e -> series_object sqrt ev a cov trim zeros axis = Raise e) /\
    (forall zeros eigs, ev A = Ok eigs -> eigs <> [] ->
       exists ts, series_object sqrt ev a cov false zeros axis = Ok ts /\ Permutation eigs (ts_vals ts) /\ Ascending (ts_vals ts) /\ ts_N ts = nN /\ ts_T ts = nT).
Proof.
  intros ev a r c cov axis nN nT x Hs Hax HN HT Hv.
  assert (exists d, ((axis = 1%Z /\ nN = r /\ nT = c /\ d = data a) \/ (axis = 0%Z /\ nN = c /\ nT = r /\ d = transpose2 r c (data a))) /\
            forall i k, (i < nN)%nat -> (k < nT)%nat -> flat nT d i k = x i k) as (d & Hd & Hx).
  { destruct Hax as [(-> & -> & -> & E4)|(-> & -> & -> & E4)].
    - exists (data a). split; [left; auto|]. intros. rewrite E4. reflexivity.
    - exists (transpose2 r c (data a)). split; [right; auto|]. intros. rewrite E4. apply transpose_flat; assumption. }
  assert (Hv' : cov = true \/ forall i, (i < nN)%nat -> Varies (flat nT d) nT i).
  { destruct Hv as [Hv|Hv]; [left; exact Hv|right]. intros i Hi. destruct (Hv i Hi) as (k & l & Hk & Hl & Hne). exists k, l. rewrite !Hx by assumption. auto. }
  assert (exists A, (if Nat.leb nN nT then direct_eigs sqrt ev nN nT d cov else transposed_eigs sqrt ev nN nT d cov) = ev A /\
     shape A = [Nat.min nN nT; Nat.min nN nT] /\
    (forall i j, (i < Nat.min nN nT)%nat -> (j < Nat.min nN nT)%nat ->
       nth (i * Nat.min nN nT + j) (data A) 0 =
         (if (nN <=? nT)%nat then (if cov then SampleCov x nT i j else Pearson x nT i j)
          else Sum (fun s => if cov then Dev x nT s i * Dev x nT s j else Standard x nT s i * Standard x nT s j) nN / (INR nT - 1)))) as (A & EA & SA & DA).
  { destruct (Nat.leb_spec nN nT) as [Hle|Hgt].
    - rewrite Nat.min_l by exact Hle. unfold direct_eigs. destruct cov.
      + exists (np_cov nN nT 1 d). split; [reflexivity|]. split; [apply cov_shape; lia|]. intros i j Hi Hj. rewrite cov_entry by lia. apply SampleCov_ext; intros; apply Hx; lia.
      + destruct (corr_entries nN nT d) as (m & Em & Sm & Dm); [lia|lia|destruct Hv' as [Hv'|Hv']; [discriminate|exact Hv']|].
        exists m. rewrite Em. split; [reflexivity|]. split; [exact Sm|]. intros i j Hi Hj. rewrite Dm by lia. apply Pearson_ext; intros; apply Hx; lia.
    - rewrite Nat.min_r by lia. destruct (transposed_entries ev nN nT d cov) as (m & Em & Sm & Dm); [lia|lia|].
      exists m. split; [exact Em|]. split; [exact Sm|]. intros k l Hk Hl. rewrite Dm by lia. f_equal. apply Sum_ext. intros s Hsn.
      assert (forall k, (k < nT)%nat -> flat nT d s k = x s k) as Hxs by (intros; apply Hx; lia).
      destruct cov; [|unfold Standard; rewrite (SampleCov_ext (flat nT d) x) by assumption]; rewrite (Dev_ext (flat nT d) x nT s k), (Dev_ext (flat nT d) x nT s l) by assumption; reflexivity. }
  exists A. split; [exact SA|]. split; [exact DA|]. split.
  - intros trim zeros e He. unfold series_object. eapply fts_raise; [exact Hs|exact Hd|]. rewrite EA. exact He.
  - intros zeros eigs He Hne. unfold series_object.
    destruct (fts_unfold (direct_eigs sqrt ev) (transposed_eigs sqrt ev) a r c cov false zeros axis eigs Hs nN nT d Hd ltac:(lia) ltac:(rewrite EA; exact He) eigs eq_refl) as [_ F].
    destruct (F Hne) as (ts & em & F1 & F2 & F3 & F4 & _). exists ts. split; [exact F1|]. rewrite F2. split; [apply np_sort_perm|]. split; [apply np_sort_ascending, notnan_R|]. auto.
Qed.
Print Assumptions C113_matrix.

(** C113 is false for fewer: whatever the data and the other arguments, one series raises (LinAlgError for covariances, ValueError for
    correlations, because np.cov of one series is a number and not a matrix), several series of one point raise ZeroDivisionError, and
    no series or no points raise as well.  The solver's contract used here: an array with fewer than two dimensions raises LinAlgError,
    a 0 x 0 array has no eigenvalues. *)
Theorem C113_too_small_refuted : forall (ev : ndarray R -> result (list R)) a r c cov trim zeros axis nN nT,
  (forall b, (List.length (shape b) < 2)%nat -> ev b = Raise LinAlgError) -> (forall b, shape b = [0%nat; 0%nat] -> ev b = Ok []) ->
  shape a = [r; c] -> ((axis = 1%Z /\ nN = r /\ nT = c) \/ (axis = 0%Z /\ nN = c /\ nT = r)) ->
  (nN = 1%nat -> (1 <= nT)%nat -> series_object sqrt ev a cov trim zeros axis = Raise (if cov then LinAlgError else ValueError)) /\
  (nT = 1%nat -> (2 <= nN)%nat -> series_object sqrt ev a cov trim zeros axis = Raise GenericException) /\
  (nN = 0%nat \/ nT = 0%nat -> exists e, series_object sqrt ev a cov trim zeros axis = Raise e).
Proof.
  intros ev a r c cov trim zeros axis nN nT H1 H0 Hs Hax.
  assert (exists d, ((axis = 1%Z /\ nN = r /\ nT = c /\ d = data a) \/ (axis = 0%Z /\ nN = c /\ nT = r /\ d = transpose2 r c (data a)))) as (d & Hd).
  { destruct Hax as [(E1 & E2 & E3)|(E1 & E2 & E3)]; eexists; [left|right]; auto. }
  unfold series_object. splits.
  - intros EN ET. eapply fts_raise; [exact Hs|exact Hd|]. rewrite EN. destruct (Nat.leb_spec 1 nT) as [_|]; [|lia]. unfold direct_eigs. destruct cov; cbn -[np_cov correlate_fast]; [|reflexivity]. apply H1. cbn. lia.
  - intros ET EN. eapply fts_raise; [exact Hs|exact Hd|]. rewrite ET. destruct (Nat.leb_spec nN 1) as [|_]; [lia|]. unfold transposed_eigs. destruct (Nat.leb_spec nN 1) as [|_]; [lia|]. reflexivity.
  - intro Hz.
    assert ((if Nat.leb nN nT then direct_eigs sqrt ev nN nT d cov else transposed_eigs sqrt ev nN nT d cov) = Ok []) as E.
    { destruct (Nat.leb_spec nN nT) as [Hle|Hgt].
      - assert (nN = 0)%nat as -> by lia. unfold direct_eigs. destruct cov; cbn; apply H0; reflexivity.
      - assert (nT = 0)%nat as -> by lia. unfold transposed_eigs. destruct (Nat.leb_spec nN 0) as [|_]; [lia|]. cbn. apply H0. reflexivity. }
    assert (exists k, zero_trim trim zeros (@nil R) = Raise k \/ zero_trim trim zeros (@nil R) = Ok [] /\ k = ValueError) as (k & [Hk|[Hk ->]]).
    { destruct trim; [|exists ValueError; right; split; reflexivity]. destruct zeros; cbn; eauto. }
    + exists k. unfold from_time_series. rewrite Hs. destruct Hd as [(-> & -> & -> & ->)|(-> & -> & -> & ->)]; cbn -[Nat.leb transpose2 zero_trim]; rewrite E; cbn -[zero_trim]; rewrite Hk; reflexivity.
    + exists ValueError. unfold from_time_series. rewrite Hs. destruct Hd as [(-> & -> & -> & ->)|(-> & -> & -> & ->)]; cbn -[Nat.leb transpose2 zero_trim]; rewrite E; cbn -[zero_trim]; rewrite Hk; reflexivity.
Qed.
Print Assumptions C113_too_small_refuted.

(** The documentation of [time_axis] says that 0 means [data.shape == (n, T)].  False: with 0 the object records the columns as series
    and the rows as time points, so the documented reading is right only for square data. *)
Theorem C113_time_axis_refuted : forall ds tr (a : ndarray R) n t cov trim zeros ts,
  shape a = [n; t] -> from_time_series sqrt ds tr a cov trim zeros 0 = Ok ts ->
  ts_N ts = t /\ ts_T ts = n /\ (ts_N ts = n /\ ts_T ts = t <-> n = t).
Proof.
  intros ds tr a n t cov trim zeros ts Hs H. unfold from_time_series in H. rewrite Hs in H. cbn -[Nat.leb transpose2 zero_trim arr_max] in H.
  destruct (if Nat.leb t n then ds t n (transpose2 n t (data a)) cov else tr t n (transpose2 n t (data a)) cov); cbn -[zero_trim arr_max] in H; [|discriminate].
  destruct (zero_trim trim zeros a0); cbn -[arr_max] in H; [|discriminate]. destruct (arr_max a1); cbn in H; [|discriminate].
  destruct (Nat.eqb n 0); [discriminate|]. assert (ts_N ts = t /\ ts_T ts = n) as [-> ->] by (injection H as <-; auto). split; [reflexivity|]. split; [reflexivity|]. split; [tauto|]. intros ->. auto.
Qed.
Print Assumptions C113_time_axis_refuted.

(** Two series of three points: 1, 2, 3 and 2, 4, 9.  Covariances 1, 7/2 and 13; with the solver's answer 1, 13 (any) the object has them. *)
Example C113_case : forall ev : ndarray R -> result (list R), (forall b, shape b = [2%nat; 2%nat] -> ev b = Ok [13; 1]) ->
  exists ts, series_object sqrt ev (mkarr [2%nat; 3%nat] [1; 2; 3; 2; 4; 9]) true false (ZNegative) 1 = Ok ts /\ Permutation [13; 1] (ts_vals ts) /\ ts_N ts = 2%nat /\ ts_T ts = 3%nat.
Proof.
  intros ev Hev. set (a := mkarr _ _). destruct (C113_matrix ev a 2 3 true 1%Z 2 3 (fun i k => nth (i * 3 + k) (data a) 0)) as (A & SA & _ & _ & F); [reflexivity|left; auto|lia|lia|left; reflexivity|].
  destruct (F ZNegative [13; 1]) as (ts & E & P & _ & N & T); [apply Hev, SA|discriminate|]. exists ts. auto.
Qed.
Example C113_case_cov : SampleCov (fun i k => nth (i * 3 + k) [1; 2; 3; 2; 4; 9] 0) 3 0 1 = 7 / 2.
Proof. unfold SampleCov, Dev, Mean. cbn. field. Qed.
Example C113_case_small : forall ev : ndarray R -> result (list R), (forall b, (List.length (shape b) < 2)%nat -> ev b = Raise LinAlgError) -> (forall b, shape b = [0%nat; 0%nat] -> ev b = Ok []) ->
  series_object sqrt ev (mkarr [1%nat; 3%nat] [1; 2; 4]) true true ZNegative 1 = Raise LinAlgError /\
  series_object sqrt ev (mkarr [1%nat; 3%nat] [1; 2; 4]) true true ZNegative 0 = Raise GenericException.
Proof.
  intros ev H1 H0. split.
  - destruct (C113_too_small_refuted ev (mkarr [1%nat; 3%nat] [1; 2; 4]) 1 3 true true ZNegative 1%Z 1 3 H1 H0 eq_refl) as (E & _); [left; auto|]. apply E; lia.
  - destruct (C113_too_small_refuted ev (mkarr [1%nat; 3%nat] [1; 2; 4]) 1 3 true true ZNegative 0%Z 3 1 H1 H0 eq_refl) as (_ & E & _); [right; auto|]. apply E; lia.
Qed.
