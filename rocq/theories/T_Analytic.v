(** Properties C26 and C27: semicircle and Poisson unfolding. *)
From Coq Require Import List ZArith Bool Arith Lia Reals Lra Sorting.Sorted Sorting.Permutation.
From Verif Require Import Base S_Order S_EigVals S_Analytic M_Analytic P_Order P_Step P_EigVals P_TrimStat P_Analytic.
Import ListNotations.
Local Open Scope R_scope.

(** C26. For every non-empty ascending spectrum of N values, [unfold_goe] returns, in the same order, the semicircle
    counting function at each eigenvalue: in [0,N], monotone, strictly increasing within the band, 0 at and below the
    lower edge, N at and above the upper edge.  The empty array is refused. *)
Theorem C26_semicircle_unfolding : forall (eigs : list R) (N : R),
  Ascending eigs -> N = INR (length eigs) ->
  (eigs = [] -> unfold_goe eigs = Raise ValueError) /\ (eigs <> [] -> exists f u, unfold_goe eigs = Ok u /\
    (forall i x, nth_error eigs i = Some x -> nth_error u i = Some (f x)) /\ length u = length eigs /\ Ascending u /\
    (forall x, SemicircleCount N x (f x)) /\
    (forall x, 0 <= f x <= N) /\
    (forall x y, x <= y -> f x <= f y) /\
    (forall x y, - sqrt (2 * N) <= x -> x < y -> y <= sqrt (2 * N) -> f x < f y) /\
    (forall x, x <= - sqrt (2 * N) -> f x = 0) /\ (forall x, sqrt (2 * N) <= x -> f x = N)).
Proof.
  intros eigs N Ha ->. split; [intros ->; reflexivity|]. intro Hne. exists (smooth_goe (length eigs)), (map (smooth_goe (length eigs)) eigs).
  assert (0 < length eigs)%nat as Hn by (destruct eigs; [congruence|cbn; lia]).
  assert (np_sort (map (smooth_goe (length eigs)) eigs) = map (smooth_goe (length eigs)) eigs) as ES
    by (apply map_mono_sorted; [intros; apply smooth_mono; assumption | exact Ha]).
  splits.
  - unfold unfold_goe. rewrite ES. destruct eigs; [congruence|reflexivity].
  - intros i x H. rewrite nth_error_map, H. reflexivity.
  - apply map_length.
  - rewrite <- ES. apply np_sort_ascending, notnan_R.
  - intro x. apply smooth_count. exact Hn.
  - apply smooth_range; exact Hn.
  - intros x y H. apply smooth_mono; assumption.
  - intros x y H1 H2 H3. apply smooth_strict; assumption.
  - intros x H. apply smooth_below; assumption.
  - intros x H. apply smooth_above; assumption.
Qed.
Print Assumptions C26_semicircle_unfolding.
(** Two eigenvalues, band edge 2: 0 maps to 1 and 5 to 2. *)
Example C26_case : unfold_goe [0; 5] = Ok [1; 2].
Proof.
  assert (Ascending [0; 5]) as Ha by (apply StronglySorted_R; repeat (constructor; [|repeat constructor; lra]); constructor).
  destruct (proj2 (C26_semicircle_unfolding [0; 5] 2 Ha ltac:(cbn; lra)) ltac:(discriminate)) as (f & u & E & Hu & Hl & _ & Hc & _ & _ & _ & _ & Hab).
  assert (sqrt (2 * 2) = 2) as Hs by (apply sqrt_square; lra).
  pose proof (Hu 0%nat 0 eq_refl) as H0. pose proof (Hu 1%nat 5 eq_refl) as H1.
  destruct u as [|p [|q [|]]]; try discriminate. cbn in H0, H1. injection H0 as ->. injection H1 as ->.
  rewrite E. rewrite (Hab 5) by (rewrite Hs; lra). f_equal. f_equal. pose proof PI_RGT_0.
  destruct (Hc 0) as [[H2 _]|[[H2 _]|[t (Ht & Hx & Hy)]]]; [lra|lra|].
  rewrite Hs in Hx. assert (sin t = 0) as Hsin by lra.
  assert (t = 0) as ->.
  { destruct (Rtotal_order t 0) as [H3|[H3|H3]]; [|exact H3|].
    - exfalso. pose proof (sin_lt_0_var t ltac:(lra) H3). lra.
    - exfalso. pose proof (sin_gt_0 t H3 ltac:(lra)). lra. }
  rewrite Hy, sin_0. field. lra.
Qed.

(** C27 (refuted). [unfold_poisson] returns the sorted values N(2 - exp(-|x|)): they lie in [N, 2N), x and -x get the
    same value, and a smaller negative eigenvalue gets a larger one.  The empty array is refused. *)
Theorem C27_poisson_unfolding_refuted : forall (eigs : list R) (N : R), N = INR (length eigs) ->
  (eigs = [] -> unfold_poisson eigs = Raise ValueError) /\ (eigs <> [] ->
  exists f u, unfold_poisson eigs = Ok u /\ Permutation (map f eigs) u /\ Ascending u /\
    (forall x, f x = N * (2 - exp (- Rabs x))) /\
    (forall x, N <= f x < 2 * N) /\
    (forall x, f (- x) = f x) /\
    (forall x y, x < y -> y <= 0 -> f y < f x)).
Proof.
  intros eigs N ->. split; [intros ->; reflexivity|]. intro Hne. exists (smooth_poisson (length eigs)), (np_sort (map (smooth_poisson (length eigs)) eigs)).
  assert (0 < INR (length eigs)) as Hn by (apply lt_0_INR; destruct eigs; [congruence|cbn; lia]).
  assert (forall x, 0 < exp (- Rabs x) <= 1) as HE.
  { intro x. split; [apply exp_pos|]. rewrite <- exp_0. pose proof (Rabs_pos x).
    destruct (Req_dec (- Rabs x) 0) as [->|Hx]; [lra|]. apply Rlt_le, exp_increasing. lra. }
  splits.
  - unfold unfold_poisson. destruct eigs; [congruence|reflexivity].
  - apply np_sort_perm.
  - apply np_sort_ascending, notnan_R.
  - intro x. apply smooth_poisson_eq.
  - intro x. rewrite smooth_poisson_eq. specialize (HE x). split; nra.
  - intro x. rewrite !smooth_poisson_eq, Rabs_Ropp. reflexivity.
  - intros x y H1 H2. rewrite !smooth_poisson_eq. apply Rmult_lt_compat_l; [exact Hn|].
    rewrite (Rabs_left1 x), (Rabs_left1 y) by lra. rewrite !Ropp_involutive. pose proof (exp_increasing x y H1). lra.
Qed.
Print Assumptions C27_poisson_unfolding_refuted.
(** The spectrum (-1, 1) collapses to a double value, and 0 is sent to N. *)
Example C27_case : (exists v, unfold_poisson [-1; 1] = Ok [v; v]) /\ unfold_poisson [0] = Ok [1].
Proof.
  split.
  - exists (smooth_poisson 2 1). unfold unfold_poisson. cbn [length map]. do 2 f_equal.
    assert (smooth_poisson 2 (-1) = smooth_poisson 2 1) as ->.
    { rewrite !smooth_poisson_eq. rewrite Rabs_left, Rabs_pos_eq by lra. do 4 f_equal. lra. }
    unfold np_sort, insert_by. destruct (np_le (smooth_poisson 2 1) (smooth_poisson 2 1)); reflexivity.
  - unfold unfold_poisson. cbn [length map np_sort insert_by]. rewrite smooth_poisson_eq, Rabs_R0, Ropp_0, exp_0. cbn. do 2 f_equal. lra.
Qed.
