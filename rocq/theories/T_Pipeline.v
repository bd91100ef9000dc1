(** Property C158: the call [Eigenvalues.generate(n, "goe", use_tridiagonal=...).unfold()] from the random numbers to the unfolded values. *)
From Coq Require Import String List ZArith Bool Arith Lia Reals Lra Sorting.Permutation.
From Coquelicot Require Import Coquelicot.
From Verif Require Import Base M_Enum M_Generate M_Smooth M_Kind M_Analytic M_Construct S_Generate S_Normal S_Rotate S_Moments S_Law S_Tape P_EigVals P_Draw P_Generate P_Analytic P_Surmise P_Rotate T_Rotate P_Moments P_Fourth2 P_Loop P_Semi P_SemiBand T_Moments P_Law P_LawUnfold P_Spectral3 P_Spectral4 T_Law P_Wick P_House P_Tridiag T_Tridiag.
Import ListNotations.
Local Open Scope R_scope.
Local Notation length := List.length.
Local Notation solver := (nat -> (nat -> nat -> R) -> (nat -> nat -> R) -> result (list R)).

(** A correct eigenvalue routine, on real symmetric and on Hermitian matrices: it returns the eigenvalues, in any order. *)
Definition RealSolver (eigvalsh : solver) : Prop := forall n m, Symmetric n m -> exists l, eigvalsh n m (fun _ _ => 0) = Ok l /\ Spectrum n m l.
Definition HermitianSolver (eigvalsh : solver) : Prop :=
  forall n re im, Symmetric n re -> Antisymmetric n im -> exists l, eigvalsh n re im = Ok l /\ CSpectrum n re im l.
(** The values of the result, none when there is no result. *)
Definition values (r : result (@M_Smooth.unfolded R)) : list R := match r with Ok u => u_values u | Raise _ => [] end.

Section Call.
Variable emd : list R -> result (list (list R)).
Variable polyfit : list R -> list R -> Z -> result (list R).
Variable uspline : list R -> list R -> Z -> R -> result (R -> R).
Variable fit_exp : list R -> list R -> R * R -> result (R * R).
Variable fit_gompertz : list R -> list R -> R * R * R -> result (R * R * R).
Variable degree : degree_arg.
Variable ss : spline_arg R.
Variable detrend : bool.
Variable seed_with : Z -> result (list R).
Variable os_state : list R.
Variable eigvalsh : solver.
(** [Eigenvalues.generate(n, kind, use_tridiagonal=tri).unfold(smoother, ...)] with the normal numbers [tape] to come (eigenvalues.py:66-132,
    720-808), the analytic counting functions being those of eigenvalues.py:810-877. *)
Definition pipeline (kind : enum_arg) (smoother : option smoother_arg) (n : nat) (tri : bool) (tape : list R) : result (@M_Smooth.unfolded R) :=
  let! o := fst (generate_object sqrt (list R) seed_with os_state tape_normal tape_normal2 tape_chi eigvalsh n kind None tri tape) in
  unfold_object emd exp polyfit uspline fit_exp fit_gompertz smooth_goe smooth_poisson o smoother degree ss detrend.

Definition levels_of (n : nat) (re im : nat -> nat -> R) : list R := match eigvalsh n re im with Ok l => np_sort l | Raise _ => [] end.
Definition unfolded_goe (lam : list R) : list R := match unfold_goe lam with Ok u => u | Raise _ => [] end.

(** The kinds and smoothers that lead to the semicircle. *)
Definition goe_kind (k : enum_arg) : Prop := k = PStr "goe" \/ k = PMember "GOE".
Definition goe_smoother (s : option smoother_arg) : Prop := s = Some (SName "goe") \/ s = Some (SMember "GOE").
Lemma by_kind o smoother n : o_kind o = Some (PMember "GOE") -> smoother = None \/ goe_smoother smoother -> length (o_vals o) = n -> (0 < n)%nat ->
  exists u, unfold_object emd exp polyfit uspline fit_exp fit_gompertz smooth_goe smooth_poisson o smoother degree ss detrend = Ok u /\ u_values u = unfolded_goe (o_vals o).
Proof.
  intros Hk Hs Hl Hn. unfold unfold_object, eig_unfold. rewrite Hk.
  assert (exists u, unfold_analytic smooth_goe (o_vals o) = Ok u /\ u_values u = unfolded_goe (o_vals o)) as H.
  { destruct (o_vals o) as [|x l]; [cbn in Hl; lia|]. eexists. split; reflexivity. }
  destruct Hs as [->|[->| ->]]; exact H.
Qed.
Lemma by_smoother o smoother n : goe_smoother smoother -> length (o_vals o) = n -> (0 < n)%nat ->
  exists u, unfold_object emd exp polyfit uspline fit_exp fit_gompertz smooth_goe smooth_poisson o smoother degree ss detrend = Ok u /\ u_values u = unfolded_goe (o_vals o).
Proof.
  intros Hs Hl Hn. unfold unfold_object, eig_unfold.
  assert (exists u, unfold_analytic smooth_goe (o_vals o) = Ok u /\ u_values u = unfolded_goe (o_vals o)) as H.
  { destruct (o_vals o) as [|x l]; [cbn in Hl; lia|]. eexists. split; reflexivity. }
  destruct Hs as [->| ->]; exact H.
Qed.

Hypothesis real_ok : RealSolver eigvalsh.
Lemma levels_real n m : Symmetric n m -> Spectrum n m (levels_of n m (fun _ _ => 0)).
Proof. intro H. destruct (real_ok n m H) as (l & E & S). unfold levels_of. rewrite E. exact (spectrum_perm n m _ _ (sort_perm l) S). Qed.
Lemma unfold_goe_of lam n : length lam = n -> (0 < n)%nat -> unfold_goe lam = Ok (unfolded_goe lam).
Proof. intros Hl Hn. unfold unfolded_goe. destruct lam as [|x l]; [cbn in Hl; lia|]. reflexivity. Qed.


(** *** The full matrix *)
Lemma full_object kind n tape : goe_kind kind -> length tape = (n * n)%nat -> forall tri, tri = false \/ (n <= 500)%nat ->
  fst (generate_object sqrt (list R) seed_with os_state tape_normal tape_normal2 tape_chi eigvalsh n kind None tri tape) =
  Ok (mkobj (levels_of n (goe_matrix sqrt n tape) (fun _ _ => 0)) (Some (PMember "GOE"))).
Proof.
  intros Hk Hl tri Ht. destruct (real_ok n (goe_matrix sqrt n tape) (goe_symmetric n tape)) as (l & E & _). unfold levels_of. rewrite E.
  assert (Z.ltb 500 (Z.of_nat n) && tri = false)%bool as T.
  { destruct Ht as [->|Ht]; [apply andb_false_r|]. destruct (Z.ltb_spec 500 (Z.of_nat n)); [lia|reflexivity]. }
  unfold generate_object, generate. destruct Hk as [->| ->]; cbn -[Z.ltb Z.of_nat Nat.mul goe_matrix firstn np_sort]; rewrite T; cbn -[Z.ltb Z.of_nat Nat.mul goe_matrix firstn np_sort];
    rewrite firstn_all2 by lia; rewrite E; reflexivity.
Qed.
Lemma full_pipeline kind smoother n tape : goe_kind kind -> smoother = None \/ goe_smoother smoother -> (0 < n)%nat -> length tape = (n * n)%nat ->
  forall tri, tri = false \/ (n <= 500)%nat -> exists u, pipeline kind smoother n tri tape = Ok u /\ u_values u = unfolded_goe (levels_of n (goe_matrix sqrt n tape) (fun _ _ => 0)).
Proof.
  intros Hk Hs Hn Hl tri Ht. unfold pipeline. rewrite (full_object kind n tape Hk Hl tri Ht). cbn [bind].
  apply (by_kind (mkobj (levels_of n (goe_matrix sqrt n tape) (fun _ _ => 0)) (Some (PMember "GOE"))) smoother n eq_refl Hs); [|exact Hn]. apply (levels_real n _ (goe_symmetric n tape)).
Qed.

(** *** The tridiagonal matrix *)
Definition blocks (n : nat) : nat := fold_right Nat.add O (map Z.to_nat (chi_range n)).
Definition tape_matrix (n : nat) (tape : list R) : nat -> nat -> R :=
  goe_tridiagonal sqrt (chi_squares (map Z.to_nat (chi_range n)) tape) (map (Rmult (sqrt 2)) (firstn n (skipn (blocks n) tape))).
Lemma blocks_size n : blocks n = (tsize n - n)%nat.
Proof.
  unfold blocks. rewrite dofs_chi. induction n as [|m IH]; [reflexivity|]. destruct m as [|m]; [reflexivity|]. change (dofs (S (S m))) with (S m :: dofs (S m)). cbn [fold_right]. rewrite IH.
  pose proof (tsize_le (S m)). cbn [tsize] in *. lia.
Qed.
Lemma tape_apart n : apart n (blocks n) 0.
Proof. rewrite blocks_size. pose proof (tsize_le n). repeat split; lia. Qed.
Lemma tape_source n tape i j : (i < n)%nat -> (j < n)%nat -> length tape = (n + n * (n - 1) / 2)%nat -> tape_matrix n tape i j = tri_source n (blocks n) 0 tape i j.
Proof.
  intros Hi Hj Hl. unfold tape_matrix, tri_source. rewrite tri_entry. unfold tri. destruct (Nat.eqb i j); [|reflexivity].
  rewrite (nth_map_div (Rmult (sqrt 2))) by ring. rewrite nth_firstn by exact Hi. rewrite nth_skipn. field. exact P_Generate.sqrt2_nz.
Qed.
Lemma tape_symmetric n tape : Symmetric n (tape_matrix n tape).
Proof. intros i j _ _. apply tri_symmetric. Qed.
Definition tape_wide (n : nat) (tape : list R) : list R := map (fun x => sqrt 2 * x) (levels_of n (tape_matrix n tape) (fun _ _ => 0)).
Lemma tape_wide_length n tape : length (tape_wide n tape) = n.
Proof. unfold tape_wide. rewrite map_length. apply (levels_real n _ (tape_symmetric n tape)). Qed.
Lemma tape_wide_back n tape : map (fun x => x / sqrt 2) (tape_wide n tape) = levels_of n (tape_matrix n tape) (fun _ _ => 0).
Proof. unfold tape_wide. rewrite map_map. rewrite <- (map_id (levels_of _ _ _)) at 2. apply map_ext. intro x. field. pose proof root2_pos. lra. Qed.
Lemma tape_average ks n : NormalAverage (n + n * (n - 1) / 2) (fun l => power_sums ks (tape_wide n l)) (gaussian_average 1 n ks).
Proof.
  pose proof root2_pos as P. pose proof (pow_lt _ (fold_right Nat.add O ks) P) as Q.
  apply (navg_value _ _ (sqrt 2 ^ fold_right Nat.add O ks * (gaussian_average 1 n ks / sqrt 2 ^ fold_right Nat.add O ks))); [field; lra|].
  apply (navg_ext _ (fun l => sqrt 2 ^ fold_right Nat.add O ks * rtraces n ks (tri_source n (blocks n) 0 l))); [|apply navg_scale, tri_source_average, tape_apart].
  intros l Hl. unfold tape_wide. rewrite power_sums_scale. f_equal. rewrite <- (rtraces_spectrum n ks _ _ (levels_real n _ (tape_symmetric n l))).
  apply (matpoly_ext n); [apply rtraces_matpoly|]. intros i j Hi Hj. symmetry. now apply tape_source.
Qed.
Lemma tri_object kind n tape : goe_kind kind -> (500 < n)%nat -> length tape = (n + n * (n - 1) / 2)%nat ->
  fst (generate_object sqrt (list R) seed_with os_state tape_normal tape_normal2 tape_chi eigvalsh n kind None true tape) =
  Ok (mkobj (levels_of n (tape_matrix n tape) (fun _ _ => 0)) (Some (PMember "GOE"))).
Proof.
  intros Hk Hn Hl. destruct (real_ok n (tape_matrix n tape) (tape_symmetric n tape)) as (l & E & _). unfold levels_of. rewrite E. unfold tape_matrix, blocks in E.
  assert (Z.ltb 500 (Z.of_nat n) && true = true)%bool as T by (destruct (Z.ltb_spec 500 (Z.of_nat n)); [reflexivity|lia]).
  unfold generate_object, generate. destruct Hk as [->| ->]; cbn -[Z.ltb Z.of_nat Nat.mul goe_tridiagonal chi_range firstn np_sort]; rewrite T; cbn -[Z.ltb Z.of_nat Nat.mul goe_tridiagonal chi_range firstn np_sort];
    rewrite E; reflexivity.
Qed.
Lemma tri_pipeline kind smoother n tape : goe_kind kind -> smoother = None \/ goe_smoother smoother -> (500 < n)%nat -> length tape = (n + n * (n - 1) / 2)%nat ->
  exists u, pipeline kind smoother n true tape = Ok u /\ u_values u = unfolded_goe (levels_of n (tape_matrix n tape) (fun _ _ => 0)).
Proof.
  intros Hk Hs Hn Hl. unfold pipeline. rewrite (tri_object kind n tape Hk Hn Hl). cbn [bind].
  apply (by_kind (mkobj (levels_of n (tape_matrix n tape) (fun _ _ => 0)) (Some (PMember "GOE"))) smoother n eq_refl Hs); [|lia]. apply (levels_real n _ (tape_symmetric n tape)).
Qed.

(** C158. With the tridiagonal matrix the call succeeds for every order above 500 and all random numbers, and for large orders the share of
    unfolded values up to y n is close to y: on average, and with mean square distance at most e. *)
Theorem C158_tridiagonal : forall kind smoother, goe_kind kind -> smoother = None \/ goe_smoother smoother ->
  (forall n tape, (500 < n)%nat -> length tape = (n + n * (n - 1) / 2)%nat -> exists u, pipeline kind smoother n true tape = Ok u) /\
  forall y, 0 <= y < 1 -> forall e, 0 < e -> exists N, forall n, (N <= n)%nat ->
  AverageWithin (n + n * (n - 1) / 2) (fun tape => count_le (y * INR n) (values (pipeline kind smoother n true tape)) / INR n) (y - e) (y + e) /\
  exists h w, (forall tape, length tape = (n + n * (n - 1) / 2)%nat -> (count_le (y * INR n) (values (pipeline kind smoother n true tape)) / INR n - y) ^ 2 <= h tape) /\
              NormalAverage (n + n * (n - 1) / 2) h w /\ w <= e.
Proof.
  intros kind smoother Hk Hs. split.
  { intros n tape Hn Hl. destruct (tri_pipeline kind smoother n tape Hk Hs Hn Hl) as (u & E & _). now exists u. }
  intros y Hy e He. set (U := fun n tape => unfolded_goe (levels_of n (tape_matrix n tape) (fun _ _ => 0))).
  assert (forall n l, (0 < n)%nat -> length l = (n + n * (n - 1) / 2)%nat -> unfold_goe (map (fun x => x / sqrt 2) (tape_wide n l)) = Ok (U n l)) as HU.
  { intros n l Hn _. rewrite tape_wide_back. apply (unfold_goe_of _ n); [|exact Hn]. apply (levels_real n _ (tape_symmetric n l)). }
  destruct (uniform (fun n => n + n * (n - 1) / 2)%nat tape_wide (fun n l _ => tape_wide_length n l) (fun ks n => gaussian_average 1 n ks) tape_average (law_limit 1) U y e HU Hy He) as (N1 & H1).
  destruct (uniform_square (fun n => n + n * (n - 1) / 2)%nat tape_wide (fun n l _ => tape_wide_length n l) (fun ks n => gaussian_average 1 n ks) tape_average (law_limit 1) U y e HU Hy He) as (N2 & H2).
  exists (501 + N1 + N2)%nat. intros n Hn.
  assert (forall tape, length tape = (n + n * (n - 1) / 2)%nat -> values (pipeline kind smoother n true tape) = U n tape) as EV.
  { intros tape Hl. destruct (tri_pipeline kind smoother n tape Hk Hs ltac:(lia) Hl) as (u & -> & V). exact V. }
  split.
  - refine (within_ext _ _ _ _ _ _ (H1 n ltac:(lia))). intros l Hl. cbv beta. now rewrite EV.
  - destruct (H2 n ltac:(lia)) as (h & w & A & B & C). exists h, w. split; [|now split]. intros tape Hl. rewrite EV by exact Hl. now apply A.
Qed.

(** C158 (refuted). With the full matrix, which is used when [use_tridiagonal] is false and for orders up to 500 whatever it is, the same call
    succeeds too, but the share of unfolded values equal to 0 exactly tends to 1/4 - 1/(2 pi), and so does that of those equal to n. *)
Theorem C158_full_refuted : forall kind smoother, goe_kind kind -> smoother = None \/ goe_smoother smoother ->
  (forall n tape tri, (0 < n)%nat -> length tape = (n * n)%nat -> tri = false \/ (n <= 500)%nat ->
     exists u, pipeline kind smoother n tri tape = Ok u /\ pipeline kind smoother n false tape = Ok u) /\
  forall e, 0 < e -> exists N, forall n, (N <= n)%nat ->
  AverageWithin (n * n) (fun tape => count_eq 0 (values (pipeline kind smoother n false tape)) / INR n) (1 / 4 - 1 / (2 * PI) - e) (1 / 4 - 1 / (2 * PI) + e) /\
  AverageWithin (n * n) (fun tape => count_eq (INR n) (values (pipeline kind smoother n false tape)) / INR n) (1 / 4 - 1 / (2 * PI) - e) (1 / 4 - 1 / (2 * PI) + e).
Proof.
  intros kind smoother Hk Hs. split.
  { intros n tape tri Hn Hl Ht. destruct (full_pipeline kind smoother n tape Hk Hs Hn Hl false (or_introl eq_refl)) as (u & E & _). exists u. split; [|exact E].
    revert E. unfold pipeline. now rewrite !(full_object kind n tape Hk Hl) by auto. }
  intros e He. set (U := fun n tape => unfolded_goe (goe_levels (fun n m => levels_of n m (fun _ _ => 0)) n tape)).
  destruct (C154_unfold_refuted (fun n m => levels_of n m (fun _ _ => 0)) levels_real U) with (e := e) as (N & H); [|exact He|].
  { intros n l Hn _. apply (unfold_goe_of _ n); [|exact Hn]. apply (levels_real n _ (goe_symmetric n l)). }
  exists (S N). intros n Hn. destruct (H n ltac:(lia)) as [H1 H2].
  assert (forall tape, length tape = (n * n)%nat -> values (pipeline kind smoother n false tape) = U n tape) as EV.
  { intros tape Hl. destruct (full_pipeline kind smoother n tape Hk Hs ltac:(lia) Hl false (or_introl eq_refl)) as (u & -> & V). exact V. }
  split; [refine (within_ext _ _ _ _ _ _ H1)|refine (within_ext _ _ _ _ _ _ H2)]; intros l Hl; cbv beta; now rewrite EV.
Qed.

(** C158. construct.py's [goe_unfolded], always tridiagonal: the same law for its unfolded values, at every order. *)
Theorem C158_construct : (forall n tape, (0 < n)%nat -> exists o u, fst (goe_unfolded (list R) tape_normal2 tape_chi eigvalsh n tape) = Ok (o, u)) /\
  forall y, 0 <= y < 1 -> forall e, 0 < e -> exists N, forall n, (N <= n)%nat ->
  AverageWithin (n + n * (n - 1) / 2)
    (fun tape => count_le (y * INR n) (match fst (goe_unfolded (list R) tape_normal2 tape_chi eigvalsh n tape) with Ok (_, u) => u | Raise _ => [] end) / INR n) (y - e) (y + e).
Proof.
  assert (forall n tape, (0 < n)%nat -> fst (goe_unfolded (list R) tape_normal2 tape_chi eigvalsh n tape) =
    Ok (levels_of n (tape_matrix n tape) (fun _ _ => 0), unfolded_goe (levels_of n (tape_matrix n tape) (fun _ _ => 0)))) as G.
  { intros n tape Hn. pose proof (levels_real n _ (tape_symmetric n tape)) as [L _]. pose proof (unfold_goe_of _ n L Hn) as U. revert L U. destruct (real_ok n (tape_matrix n tape) (tape_symmetric n tape)) as (l & E & S).
    unfold levels_of. rewrite E. intros L U. unfold goe_unfolded, tape_chi, tape_normal2. destruct (Nat.eqb_spec n 0) as [|_]; [lia|].
    cbn [fst]. change (fold_right Nat.add O (map Z.to_nat (chi_range n))) with (blocks n). change (goe_tridiagonal sqrt (chi_squares (map Z.to_nat (chi_range n)) tape) (map (Rmult (sqrt 2)) (firstn n (skipn (blocks n) tape)))) with (tape_matrix n tape).
    rewrite E. cbn [bind]. assert (length l = n) as Ll by apply S.
    assert (Ok (np_sort l, np_sort (map (smooth_goe n) l)) = Ok (np_sort l, unfolded_goe (np_sort l))) as <-; [|destruct l; [cbn in Ll; lia|reflexivity]].
    do 2 f_equal. unfold unfolded_goe, unfold_goe. rewrite L. assert (np_sort (map (smooth_goe n) (np_sort l)) = np_sort (map (smooth_goe n) l)) as X.
    { apply np_sort_perm_R, Permutation_map, Permutation_sym, sort_perm. }
    destruct (np_sort l) as [|x t]; [cbn in L; lia|]. now symmetry. }
  split; [intros n tape Hn; eexists _, _; now apply G|]. intros y Hy e He. set (U := fun n tape => unfolded_goe (levels_of n (tape_matrix n tape) (fun _ _ => 0))).
  assert (forall n l, (0 < n)%nat -> length l = (n + n * (n - 1) / 2)%nat -> unfold_goe (map (fun x => x / sqrt 2) (tape_wide n l)) = Ok (U n l)) as HU.
  { intros n l Hn _. rewrite tape_wide_back. apply (unfold_goe_of _ n); [|exact Hn]. apply (levels_real n _ (tape_symmetric n l)). }
  destruct (uniform (fun n => n + n * (n - 1) / 2)%nat tape_wide (fun n l _ => tape_wide_length n l) (fun ks n => gaussian_average 1 n ks) tape_average (law_limit 1) U y e HU Hy He) as (N & H).
  exists (S N). intros n Hn. refine (within_ext _ _ _ _ _ _ (H n ltac:(lia))). intros l Hl. cbv beta. rewrite G by lia. reflexivity.
Qed.

(** C158 (refuted). The Gaussian unitary matrix asked to be unfolded by the semicircle: collapsed in the same way. *)
Hypothesis herm_ok : HermitianSolver eigvalsh.
Lemma levels_herm n re im : Symmetric n re -> Antisymmetric n im -> CSpectrum n re im (levels_of n re im).
Proof. intros H H'. destruct (herm_ok n re im H H') as (l & E & S). unfold levels_of. rewrite E. exact (cspectrum_perm n re im _ _ (sort_perm l) S). Qed.
Theorem C158_gue_refuted : forall kind smoother tri, kind = PStr "gue" \/ kind = PMember "GUE" -> goe_smoother smoother ->
  (forall n tape, (0 < n)%nat -> length tape = (2 * (n * n))%nat -> exists u, pipeline kind smoother n tri tape = Ok u) /\
  forall e, 0 < e -> exists N, forall n, (N <= n)%nat ->
  AverageWithin (2 * (n * n)) (fun tape => count_eq 0 (values (pipeline kind smoother n tri tape)) / INR n) (1 / 4 - 1 / (2 * PI) - e) (1 / 4 - 1 / (2 * PI) + e) /\
  AverageWithin (2 * (n * n)) (fun tape => count_eq (INR n) (values (pipeline kind smoother n tri tape)) / INR n) (1 / 4 - 1 / (2 * PI) - e) (1 / 4 - 1 / (2 * PI) + e).
Proof.
  intros kind smoother tri Hk Hs.
  assert (forall n l, Symmetric n (fun i j => fst (gue n l i j)) /\ Antisymmetric n (fun i j => snd (gue n l i j))) as HG.
  { intros n l. split; intros i j Hi Hj; rewrite (gue_conj n l j i) by assumption; reflexivity. }
  set (U := fun n tape => unfolded_goe (gue_levels levels_of n tape)).
  assert (forall n tape, (0 < n)%nat -> length tape = (2 * (n * n))%nat -> exists u, pipeline kind smoother n tri tape = Ok u /\ u_values u = U n tape) as P.
  { intros n tape Hn Hl. destruct (HG n tape) as [S A].
    assert (fst (generate_object sqrt (list R) seed_with os_state tape_normal tape_normal2 tape_chi eigvalsh n kind None tri tape) = Ok (mkobj (gue_levels levels_of n tape) (Some (PMember "GUE")))) as G.
    { unfold gue_levels, levels_of. destruct (herm_ok n _ _ S A) as (l & E & _). rewrite E.
      change (eigvalsh n (gue_re n (firstn (n * n) tape) (skipn (n * n) tape)) (gue_im n (firstn (n * n) tape) (skipn (n * n) tape)) = Ok l) in E.
      rewrite <- (firstn_all2 (n := (n * n)%nat) (skipn (n * n) tape)) in E by (rewrite skipn_length; lia).
      unfold generate_object, generate. destruct Hk as [->| ->]; cbn -[Nat.mul gue_re gue_im firstn skipn np_sort]; rewrite E; reflexivity. }
    unfold pipeline. rewrite G. cbn [bind]. apply (by_smoother (mkobj (gue_levels levels_of n tape) (Some (PMember "GUE"))) smoother n Hs); [|exact Hn]. apply (levels_herm n _ _ S A). }
  split; [intros n tape Hn Hl; destruct (P n tape Hn Hl) as (u & E & _); now exists u|]. intros e He.
  destruct (C154_gue_unfold_refuted levels_of levels_herm U) with (e := e) as (N & H); [|exact He|].
  { intros n l Hn _. destruct (HG n l) as [S A]. apply (unfold_goe_of _ n); [|exact Hn]. apply (levels_herm n _ _ S A). }
  exists (S N). intros n Hn. destruct (H n ltac:(lia)) as [H1 H2].
  assert (forall tape, length tape = (2 * (n * n))%nat -> values (pipeline kind smoother n tri tape) = U n tape) as EV.
  { intros tape Hl. destruct (P n tape ltac:(lia) Hl) as (u & -> & V). exact V. }
  split; [refine (within_ext _ _ _ _ _ _ H1)|refine (within_ext _ _ _ _ _ _ H2)]; intros l Hl; cbv beta; now rewrite EV.
Qed.
End Call.
Print Assumptions C158_tridiagonal.
Print Assumptions C158_full_refuted.
Print Assumptions C158_construct.
Print Assumptions C158_gue_refuted.
(** The routine of C155, and fits that are never called: with the tridiagonal matrix half of the unfolded values are below n/2 in the limit; with the
    full matrix more than one in twelve are exactly zero. *)
Definition ex_solver : solver := fun n re im => Ok (sorted_eigs n re im).
Definition ex_pipeline : enum_arg -> option smoother_arg -> nat -> bool -> list R -> result (@M_Smooth.unfolded R) :=
  pipeline (fun _ => Raise ValueError) (fun _ _ _ => Raise ValueError) (fun _ _ _ _ => Raise ValueError) (fun _ _ _ => Raise ValueError) (fun _ _ _ => Raise ValueError)
    DNone ANoneS false (fun _ => Raise ValueError) [] ex_solver.
Example C158_ex : RealSolver ex_solver /\ HermitianSolver ex_solver /\
  (exists N, forall n, (N <= n)%nat -> AverageWithin (n + n * (n - 1) / 2) (fun tape => count_le (1 / 2 * INR n) (values (ex_pipeline (PStr "goe") None n true tape)) / INR n) (49 / 100) (51 / 100)) /\
  (exists N, forall n, (N <= n)%nat -> exists s, 1 / 12 <= s /\ AverageWithin (n * n) (fun tape => count_eq 0 (values (ex_pipeline (PStr "goe") None n false tape)) / INR n) s (1 / 4)).
Proof.
  assert (RealSolver ex_solver) as HR by (intros n m H; eexists; split; [reflexivity|now apply sorted_real]).
  split; [exact HR|]. split; [intros n re im H H'; eexists; split; [reflexivity|now apply sorted_complex]|]. split.
  - replace (49 / 100) with (1 / 2 - 1 / 100) by field. replace (51 / 100) with (1 / 2 + 1 / 100) by field.
    destruct (C158_tridiagonal (fun _ => Raise ValueError) (fun _ _ _ => Raise ValueError) (fun _ _ _ _ => Raise ValueError) (fun _ _ _ => Raise ValueError) (fun _ _ _ => Raise ValueError)
      DNone ANoneS false (fun _ => Raise ValueError) [] ex_solver HR (PStr "goe") None (or_introl eq_refl) (or_introl eq_refl)) as (_ & H).
    destruct (H (1 / 2) ltac:(lra) (1 / 100) ltac:(lra)) as (N & HN). exists N. intros n Hn. apply (HN n Hn).
  - pose proof PI2_3_2 as HP. unfold PI2 in HP. assert (1 / 12 < 1 / 4 - 1 / (2 * PI) < 1 / 4) as [P1 P2].
    { assert (0 < / (2 * PI) < / 6) by (split; [apply Rinv_0_lt_compat; lra|apply Rinv_lt_contravar; lra]). lra. }
    assert (exists e, 0 < e /\ e <= 1 / 4 - 1 / (2 * PI) - 1 / 12 /\ e <= 1 / (2 * PI)) as (e & E0 & E1 & E2).
    { exists (Rmin (1 / 4 - 1 / (2 * PI) - 1 / 12) (1 / (2 * PI))). split; [apply Rmin_case; lra|]. split; [apply Rmin_l|apply Rmin_r]. }
    destruct (C158_full_refuted (fun _ => Raise ValueError) (fun _ _ _ => Raise ValueError) (fun _ _ _ _ => Raise ValueError) (fun _ _ _ => Raise ValueError) (fun _ _ _ => Raise ValueError)
      DNone ANoneS false (fun _ => Raise ValueError) [] ex_solver HR (PStr "goe") None (or_introl eq_refl) (or_introl eq_refl)) as (_ & H).
    destruct (H e E0) as (N & HN). exists N. intros n Hn. exists (1 / 4 - 1 / (2 * PI) - e). split; [lra|].
    destruct (proj1 (HN n Hn)) as (g & h & a & b & G1 & G2 & G3 & G4 & G5). exists g, h, a, b. split; [exact G1|]. split; [exact G2|]. split; [exact G3|]. split; [exact G4|]. lra.
Qed.
