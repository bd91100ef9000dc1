(** Property C134: which independent levels [unfold_poisson] unfolds to unit density. *)
From Coq Require Import List ZArith Bool Arith Lia Reals Lra Sorting.Sorted Sorting.Permutation.
From Coquelicot Require Import Coquelicot.
From Verif Require Import Base S_Order S_EigVals S_Analytic S_Normal M_Analytic P_Order P_Step P_EigVals P_TrimStat P_Analytic.
Import ListNotations.
Local Open Scope R_scope.

(** ** Spec: the second density and the share of a density in an interval *)
Definition laplace_density (x : R) : R := exp (- Rabs x) / 2.
(** The probability that a level of density [p] lies between [lo] and [hi]. *)
Definition Share (p : R -> R) (lo hi v : R) : Prop := is_RInt p lo hi v.
(** Number of values that are at most [y]. *)
Definition at_most (y : R) (l : list R) : nat := length (filter (fun x => if Rle_dec x y then true else false) l).
(** Number of values between [-a] and [a]. *)
Definition inside (a : R) (l : list R) : nat := length (filter (fun x => if Rle_dec (- a) x then if Rle_dec x a then true else false else false) l).

Lemma at_most_perm y l l' : Permutation l l' -> at_most y l = at_most y l'.
Proof.
  unfold at_most. intro H. induction H as [|x l1 l2 H IH|x z l1|l1 l2 l3 H1 IH1 H2 IH2]; cbn [filter]; try congruence.
  - destruct (Rle_dec x y); cbn [length]; congruence.
  - destruct (Rle_dec x y), (Rle_dec z y); reflexivity.
Qed.

Lemma below_iff n s x : (0 < n)%nat -> 0 <= s < 1 ->
  smooth_poisson n x <= INR n * (1 + s) <-> - - ln (1 - s) <= x <= - ln (1 - s).
Proof.
  intros Hn Hs. rewrite smooth_poisson_eq. assert (0 < INR n) as HN by now apply lt_0_INR.
  transitivity (1 - s <= exp (- Rabs x)).
  { split; intro H; nra. }
  transitivity (Rabs x <= - ln (1 - s)).
  - split; intro H.
    + pose proof (ln_le (1 - s) _ ltac:(lra) H) as H1. rewrite ln_exp in H1. lra.
    + rewrite <- (exp_ln (1 - s)) at 1 by lra. destruct (Req_dec (ln (1 - s)) (- Rabs x)) as [->|Hq]; [lra|]. apply Rlt_le, exp_increasing. lra.
  - split; intro H; [apply Rabs_le_between in H; exact H|apply Rabs_le_between; exact H].
Qed.

Lemma count_below n s l : (0 < n)%nat -> 0 <= s < 1 -> at_most (INR n * (1 + s)) (map (smooth_poisson n) l) = inside (- ln (1 - s)) l.
Proof.
  intros Hn Hs. unfold at_most, inside. induction l as [|x l IH]; [reflexivity|]. cbn [map filter]. pose proof (below_iff n s x Hn Hs) as HB.
  destruct (Rle_dec (smooth_poisson n x) (INR n * (1 + s))) as [H|H], (Rle_dec (- - ln (1 - s)) x), (Rle_dec x (- ln (1 - s))); cbn [length]; rewrite ?IH; auto; exfalso; tauto.
Qed.

(** The half-width of the interval of levels unfolded to at most N(1+s). *)
Definition half (s : R) : R := - ln (1 - s).
Lemma half_pos s : 0 <= s < 1 -> 0 <= half s.
Proof. intro H. unfold half. pose proof (ln_le (1 - s) 1 ltac:(lra) ltac:(lra)) as H1. rewrite ln_1 in H1. lra. Qed.
Lemma half_exp s : 0 <= s < 1 -> exp (half s) = / (1 - s).
Proof. intro H. unfold half. rewrite exp_Ropp, exp_ln by lra. reflexivity. Qed.

Lemma is_derive_half s : s < 1 -> is_derive half s (/ (1 - s)).
Proof. intro H. unfold half. auto_derive; [lra|]. field. lra. Qed.

Lemma normal_cont x : continuous normal_density x.
Proof.
  apply (continuous_scal_l (fun x => exp (- (x * x) / 2)) (/ sqrt (2 * PI))).
  apply (ex_derive_continuous (V := R_NormedModule)). auto_derive. auto.
Qed.
Lemma normal_ex a b : ex_RInt normal_density a b.
Proof. apply (ex_RInt_continuous (V := R_CompleteNormedModule)). intros. apply normal_cont. Qed.

Lemma laplace_half a : 0 <= a -> is_RInt laplace_density (- a) a (1 - exp (- a)).
Proof.
  intro Ha.
  assert (is_RInt laplace_density (- a) 0 ((1 - exp (- a)) / 2)) as H1.
  { apply (is_RInt_ext (fun x => exp x / 2)).
    - intros x Hx. rewrite Rmin_left, Rmax_right in Hx by lra. unfold laplace_density. rewrite Rabs_left by lra. now rewrite Ropp_involutive.
    - replace ((1 - exp (- a)) / 2) with (exp 0 / 2 - exp (- a) / 2) by (rewrite exp_0; lra).
      apply (is_RInt_derive (V := R_CompleteNormedModule) (fun x => exp x / 2)).
      + intros x _. auto_derive; auto. field.
      + intros x _. apply (ex_derive_continuous (V := R_NormedModule)). auto_derive. auto. }
  assert (is_RInt laplace_density 0 a ((1 - exp (- a)) / 2)) as H2.
  { apply (is_RInt_ext (fun x => exp (- x) / 2)).
    - intros x Hx. rewrite Rmin_left, Rmax_right in Hx by lra. unfold laplace_density. now rewrite Rabs_pos_eq by lra.
    - replace ((1 - exp (- a)) / 2) with (- exp (- a) / 2 - - exp (- 0) / 2) by (rewrite Ropp_0, exp_0; lra).
      apply (is_RInt_derive (V := R_CompleteNormedModule) (fun x => - exp (- x) / 2)).
      + intros x _. auto_derive; auto. field.
      + intros x _. apply (ex_derive_continuous (V := R_NormedModule)). auto_derive. auto. }
  replace (1 - exp (- a)) with ((1 - exp (- a)) / 2 + (1 - exp (- a)) / 2) by lra.
  apply (is_RInt_Chasles (V := R_NormedModule) _ _ 0 _ _ _ H1 H2).
Qed.

(** C134. Of N levels, those unfolded to at most N(1+s) are exactly the ones in an interval [-a, a]; a level of the
    density exp(-|x|)/2 lies there with probability s, so that independent levels of this density are unfolded to a
    uniform density of one level per unit length on [N, 2N). *)
Theorem C134_laplace : forall (eigs u : list R) (N : R), N = INR (length eigs) -> unfold_poisson eigs = Ok u ->
  forall s, 0 <= s < 1 -> exists a, 0 <= a /\ at_most (N * (1 + s)) u = inside a eigs /\ Share laplace_density (- a) a s.
Proof.
  intros eigs u N -> E s Hs. exists (half s). split; [now apply half_pos|]. unfold unfold_poisson in E.
  assert (0 < length eigs)%nat as Hn by (destruct eigs; [discriminate|cbn; lia]).
  assert (u = np_sort (map (smooth_poisson (length eigs)) eigs)) as -> by (destruct eigs; [discriminate|now injection E]).
  split.
  - rewrite <- (at_most_perm _ _ _ (np_sort_perm _)). now apply count_below.
  - unfold Share. replace s with (1 - exp (- half s)) at 3; [apply laplace_half, half_pos, Hs|].
    rewrite exp_Ropp, half_exp by exact Hs. rewrite Rinv_inv. lra.
Qed.
Print Assumptions C134_laplace.
(** Three levels: the two of size at most ln 2 are unfolded to at most 9/2, and half the density lies there. *)
Example C134_case : exists u, unfold_poisson [-1; 1/2; 0] = Ok u /\ at_most (9 / 2) u = 2%nat /\ Share laplace_density (- ln 2) (ln 2) (1 / 2).
Proof.
  eexists. split; [reflexivity|]. rewrite <- (at_most_perm _ _ _ (np_sort_perm _)).
  replace (9 / 2) with (INR 3 * (1 + 1 / 2)) by (cbn; lra). cbn [length]. rewrite count_below by (lia || lra).
  replace (- ln (1 - 1 / 2)) with (ln 2) by (replace (1 - 1 / 2) with (/ 2) by lra; rewrite ln_Rinv by lra; lra).
  assert (1 / 2 < ln 2 < 1) as Hl.
  { split.
    - pose proof ln_lt_2. lra.
    - rewrite <- (ln_exp 1). apply ln_increasing; [lra|]. pose proof (exp_ineq1 1 ltac:(lra)). lra. }
  split.
  - unfold inside. cbn [filter]. repeat (destruct (Rle_dec _ _); [try lra|try lra]); reflexivity.
  - unfold Share. replace (1 / 2) with (1 - exp (- ln 2)) by (rewrite exp_Ropp, exp_ln by lra; lra). apply laplace_half. lra.
Qed.

(** The probability that a standard normal level is unfolded to at most N(1+s). *)
Definition normal_share (s : R) : R := RInt normal_density (- half s) (half s).

Lemma normal_share_derive s : 0 <= s < 1 -> is_derive normal_share s (sqrt (2 / PI) * exp (half s - half s * half s / 2)).
Proof.
  intro Hs. pose proof PI_RGT_0 as HP.
  set (G := fun x => RInt normal_density 0 x).
  assert (forall x, is_derive G x (normal_density x)) as HG.
  { intro x. apply (is_derive_RInt (V := R_CompleteNormedModule) normal_density G 0).
    - exists (mkposreal 1 Rlt_0_1). intros y _. apply RInt_correct, normal_ex.
    - apply normal_cont. }
  apply (is_derive_ext (fun t => G (half t) - G (- half t))).
  { intro t. unfold normal_share, G. rewrite <- (RInt_Chasles normal_density (- half t) 0 (half t)) by apply normal_ex.
    rewrite <- (opp_RInt_swap normal_density (- half t) 0) by apply normal_ex. unfold plus, opp. cbn. lra. }
  pose proof (is_derive_half s ltac:(lra)) as Hh.
  assert (is_derive (fun t => G (half t)) s (/ (1 - s) * normal_density (half s))) as H1
    by (apply (is_derive_comp G half); auto).
  assert (is_derive (fun t => G (- half t)) s (- / (1 - s) * normal_density (- half s))) as H2.
  { apply (is_derive_comp G (fun t => - half t)); [apply HG|]. apply (is_derive_opp half s _ Hh). }
  replace (sqrt (2 / PI) * exp (half s - half s * half s / 2)) with (/ (1 - s) * normal_density (half s) - - / (1 - s) * normal_density (- half s));
    [apply (is_derive_minus _ _ _ _ _ H1 H2)|].
  rewrite <- half_exp by exact Hs. unfold normal_density.
  replace (- (- half s * - half s) / 2) with (- (half s * half s) / 2) by lra.
  replace (half s - half s * half s / 2) with (half s + - (half s * half s) / 2) by lra. rewrite exp_plus.
  replace (sqrt (2 / PI)) with (2 / sqrt (2 * PI)); [field; apply Rgt_not_eq, sqrt_lt_R0; lra|].
  apply Rmult_eq_reg_r with (sqrt (2 * PI)); [|apply Rgt_not_eq, sqrt_lt_R0; lra].
  rewrite <- sqrt_mult by (try apply Rmult_le_pos; try apply Rlt_le, Rinv_0_lt_compat; lra).
  replace (2 / PI * (2 * PI)) with (2 * 2) by (field; lra). rewrite sqrt_square by lra. field. apply Rgt_not_eq, sqrt_lt_R0; lra.
Qed.

(** C134 (refuted for the levels the package generates: sorted standard normals).  The expected number of them per unit
    length, at N(1+s) on the unfolded axis, is sqrt(2/pi) exp(h - h^2/2) with h = -ln(1-s): below 0.9 at the lower end,
    above 1 at s = 1 - 1/e, and as small as wished towards the upper end, so it is not 1. *)
Theorem C134_normal_refuted : forall (eigs u : list R) (N : R), N = INR (length eigs) -> unfold_poisson eigs = Ok u ->
  exists F f a : R -> R,
    (forall s, 0 <= s < 1 -> at_most (N * (1 + s)) u = inside (a s) eigs /\ Share normal_density (- a s) (a s) (F s)) /\
    (forall s, 0 <= s < 1 -> is_derive F s (f s)) /\
    (forall s, f s = sqrt (2 / PI) * exp (a s - a s * a s / 2)) /\ (forall s, a s = - ln (1 - s)) /\
    f 0 < 9 / 10 /\ (exists s, 0 <= s < 1 /\ 1 < f s) /\ (forall e, 0 < e -> exists s, 0 <= s < 1 /\ f s < e).
Proof.
  intros eigs u N -> E. unfold unfold_poisson in E.
  assert (0 < length eigs)%nat as Hn by (destruct eigs; [discriminate|cbn; lia]).
  assert (u = np_sort (map (smooth_poisson (length eigs)) eigs)) as -> by (destruct eigs; [discriminate|now injection E]).
  assert (3 < PI) as HP3 by (pose proof PI2_3_2; lra). assert (PI <= 4) as HP4 by apply PI_4.
  assert (1 / 2 <= 2 / PI < 8 / 10) as HQ.
  { assert (2 / PI * PI = 2) as Hm by (field; lra). split; nra. }
  assert (forall h, 0 <= h -> exists s, 0 <= s < 1 /\ half s = h) as Hinv.
  { intros h Hh. exists (1 - exp (- h)). pose proof (exp_pos (- h)). assert (exp (- h) <= 1) by (rewrite <- exp_0; destruct (Req_dec h 0) as [->|]; [rewrite Ropp_0; lra|apply Rlt_le, exp_increasing; lra]).
    split; [lra|]. unfold half. replace (1 - (1 - exp (- h))) with (exp (- h)) by lra. rewrite ln_exp. lra. }
  exists normal_share, (fun s => sqrt (2 / PI) * exp (half s - half s * half s / 2)), half. splits.
  - intros s Hs. split; [rewrite <- (at_most_perm _ _ _ (np_sort_perm _)); now apply count_below|]. apply (RInt_correct (V := R_CompleteNormedModule)), normal_ex.
  - intros s Hs. now apply normal_share_derive.
  - reflexivity.
  - reflexivity.
  - unfold half. rewrite Rminus_0_r, ln_1. replace (- 0 - - 0 * - 0 / 2) with 0 by lra. rewrite exp_0, Rmult_1_r.
    rewrite <- (sqrt_square (9 / 10)) by lra. apply sqrt_lt_1; lra.
  - destruct (Hinv 1 ltac:(lra)) as (s & Hs & Eh). exists s. split; [exact Hs|]. rewrite Eh. replace (1 - 1 * 1 / 2) with (1 / 2) by lra.
    pose proof (exp_ineq1 1 ltac:(lra)) as He. replace 1 with (1 / 2 + 1 / 2) in He at 3 by lra. rewrite exp_plus in He.
    pose proof (sqrt_sqrt (2 / PI) ltac:(lra)) as Hq. pose proof (sqrt_pos (2 / PI)). pose proof (exp_pos (1 / 2)).
    set (q := sqrt (2 / PI)) in *. set (x := exp (1 / 2)) in *. destruct (Rle_lt_dec (q * x) 1) as [Hc|Hc]; [|exact Hc]. exfalso.
    assert ((q * x) * (q * x) <= 1) by (assert (0 <= q * x) by nra; nra). nra.
  - intros e He. assert (0 < / e) by now apply Rinv_0_lt_compat. destruct (Hinv (4 + / e) ltac:(lra)) as (s & Hs & Eh). exists s. split; [exact Hs|]. rewrite Eh. set (h := 4 + / e) in *.
    assert (sqrt (2 / PI) <= 1) as Hq by (rewrite <- sqrt_1; apply sqrt_le_1; lra).
    assert (exp (h - h * h / 2) <= exp (- h)) as Hx by (destruct (Req_dec (h - h * h / 2) (- h)) as [->|]; [lra|]; apply Rlt_le, exp_increasing; unfold h in *; nra).
    assert (exp (- h) < e) as Hlt.
    { rewrite exp_Ropp. rewrite <- (Rinv_inv e). apply Rinv_lt_contravar; [apply Rmult_lt_0_compat; [lra|apply exp_pos]|].
      pose proof (exp_ineq1 h ltac:(unfold h; lra)). unfold h in *. lra. }
    pose proof (exp_pos (h - h * h / 2)). pose proof (sqrt_pos (2 / PI)). nra.
Qed.
Print Assumptions C134_normal_refuted.
(** Two levels at -1 and 1: both are unfolded above 3, the level 3 = 2 (1 + 1/2) being reached at ln 2 only. *)
Example C134_normal_case : exists u, unfold_poisson [-1; 1] = Ok u /\ at_most 3 u = 0%nat /\ exists v, Share normal_density (- ln 2) (ln 2) v.
Proof.
  eexists. split; [reflexivity|]. rewrite <- (at_most_perm _ _ _ (np_sort_perm _)).
  replace 3 with (INR 2 * (1 + 1 / 2)) by (cbn; lra). cbn [length]. rewrite count_below by (lia || lra).
  replace (- ln (1 - 1 / 2)) with (ln 2) by (replace (1 - 1 / 2) with (/ 2) by lra; rewrite ln_Rinv by lra; lra).
  assert (ln 2 < 1) as Hl by (rewrite <- (ln_exp 1); apply ln_increasing; [lra|]; pose proof (exp_ineq1 1 ltac:(lra)); lra).
  split; [|apply normal_ex]. unfold inside. cbn [filter]. repeat (destruct (Rle_dec _ _); [try lra|try lra]); reflexivity.
Qed.
