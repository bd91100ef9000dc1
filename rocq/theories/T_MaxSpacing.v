(** Property C118: the maximum spacing fit of the Brody parameter. *)
From Coq Require Import String List ZArith Bool Arith Lia Reals Lra Sorting.Permutation Sorting.Sorted.
From Coquelicot Require Import Coquelicot.
From Verif Require Import Base S_Order S_EigVals S_Trim M_EigVals M_Quad P_Order P_EigVals P_TrimStat P_Ols P_Draw M_Ensemble S_Ensemble S_Brody P_Brody M_Brody T_Brody P_Pi.
Import ListNotations.
Local Open Scope R_scope.
Local Notation length := List.length.

(** Maximum spacing estimation: [l] the ordered sample, [F] a distribution function.  The method multiplies all the increments of [F]
    from 0 over the sample to 1; the inner ones are those between two sample points. *)
Definition Product (l : list R) : R := fold_right Rmult 1 l.
Definition InnerSpacings (F : R -> R) (l : list R) : R := Product (Gaps (map F l)).
Definition AllSpacings (F : R -> R) (l : list R) : R := Product (Gaps (0 :: map F l ++ [1])).

Lemma ln_Product (l : list R) : List.Forall (fun x => 0 < x) l -> 0 < Product l /\ ln (Product l) = Rsum (map ln l).
Proof.
  induction 1 as [|x l Hx Hl (P & E)]; cbn [Product fold_right map]; [split; [lra|]; rewrite ln_1; reflexivity|].
  change (fold_right Rmult 1 l) with (Product l). split; [now apply Rmult_lt_0_compat|]. rewrite Rsum_cons, <- E. now apply ln_mult.
Qed.
Lemma Gaps_pos F (l : list R) : StronglySorted Rlt l -> (forall x y, In x l -> In y l -> x < y -> F x < F y) -> List.Forall (fun x => 0 < x) (Gaps (map F l)).
Proof.
  induction 1 as [|x l Hs IH Hx]; intro HF; [constructor|]. destruct l as [|y l]; [constructor|].
  change (Gaps (map F (x :: y :: l))) with ((F y - F x) :: Gaps (map F (y :: l))). constructor.
  - inversion Hx; subst. specialize (HF x y ltac:(now left) ltac:(right; now left) ltac:(assumption)). lra.
  - apply IH. intros a b Ha Hb. apply HF; now right.
Qed.

Lemma objective_inner gamma s l b : GammaFunction gamma -> Permutation s l -> StronglySorted Rlt l -> List.Forall (fun x => 0 <= x) l -> 0 <= b <= 1 ->
  0 < InnerSpacings (brody_cdf gamma b) l /\ spacing_objective gamma s b = - ln (InnerSpacings (brody_cdf gamma b) l) / INR (length s).
Proof.
  intros HG Hp Hs Hl Hb. rewrite Forall_forall in Hl.
  assert (np_sort s = l) as Es.
  { rewrite (np_sort_perm_R s l Hp). apply np_sort_id, Ascending_NpLe; [apply notnan_R|]. apply StronglySorted_R.
    clear -Hs. induction Hs as [|x t Hs IH Hx]; constructor; [exact IH|]. eapply Forall_impl; [|exact Hx]. cbn. intros; lra. }
  assert (List.Forall (fun x => 0 < x) (Gaps (map (brody_cdf gamma b) l))) as HP.
  { apply Gaps_pos; [exact Hs|]. intros x y Hx _ Hxy. apply brody_cdf_incr; auto. }
  destruct (ln_Product _ HP) as [P E]. split; [exact P|]. unfold spacing_objective. cbv zeta. rewrite Es, ndiff_Gaps, positives_pos by exact HP.
  rewrite nsum_R, <- E. replace (Z.of_nat (length s) - 1 + 1)%Z with (Z.of_nat (length s)) by lia. rewrite <- INR_IZR_INZ. reflexivity.
Qed.

(** C118. On distinct non-negative spacings the objective orders the parameters by the product of the inner spacings of the fitted
    distribution function, the largest product first; with an exact minimiser the fitted beta maximises that product. *)
Theorem C118_inner : forall (gamma : R -> R) (s l : list R), GammaFunction gamma ->
  s <> [] -> Permutation s l -> StronglySorted Rlt l -> List.Forall (fun x => 0 <= x) l ->
  (forall b b', 0 <= b <= 1 -> 0 <= b' <= 1 ->
     (spacing_objective gamma s b < spacing_objective gamma s b' <-> InnerSpacings (brody_cdf gamma b') l < InnerSpacings (brody_cdf gamma b) l)) /\
  (forall opt method beta, (forall f lo hi x, opt f lo hi = (true, x) -> lo <= x <= hi /\ forall y, lo <= y <= hi -> f x <= f y) ->
     SameUpToCase method "spacing" \/ SameUpToCase method "spacings" -> fit_brody gamma opt s method = Ok beta ->
     0 <= beta <= 1 /\ forall y, 1 / 100000 <= y <= 1 - 1 / 100000 -> InnerSpacings (brody_cdf gamma y) l <= InnerSpacings (brody_cdf gamma beta) l).
Proof.
  intros gamma s l HG Hne Hp Hs Hl.
  assert (0 < INR (length s)) as Hn by (apply lt_0_INR; destruct s; [congruence|cbn; lia]).
  assert (forall b b', 0 <= b <= 1 -> 0 <= b' <= 1 ->
     (spacing_objective gamma s b < spacing_objective gamma s b' <-> InnerSpacings (brody_cdf gamma b') l < InnerSpacings (brody_cdf gamma b) l)) as K.
  { intros b b' Hb Hb'. destruct (objective_inner gamma s l b HG Hp Hs Hl Hb) as [P ->]. destruct (objective_inner gamma s l b' HG Hp Hs Hl Hb') as [P' ->].
    set (u := InnerSpacings _ l) in *. set (u' := InnerSpacings (brody_cdf gamma b') l) in *. split.
    - intro H. apply ln_lt_inv; [exact P'|exact P|]. apply (Rmult_lt_compat_r (INR (length s))) in H; [|exact Hn]. unfold Rdiv in H. rewrite !Rmult_assoc, Rinv_l, !Rmult_1_r in H; lra.
    - intro H. apply (ln_increasing _ _ P') in H. apply Rmult_lt_compat_r; [now apply Rinv_0_lt_compat|lra]. }
  split; [exact K|]. intros opt method beta Ho Hm Hf. destruct (C53_dispatch gamma opt s method) as [D _]. rewrite (D Hm) in Hf.
  destruct (opt (spacing_objective gamma s) (1 / 100000) (1 - 1 / 100000)) as [[] x] eqn:E; [|discriminate]. cbn in Hf. injection Hf as <-.
  destruct (Ho _ _ _ _ E) as [Hx Hy]. split; [lra|]. intros y Hyb. apply Rnot_lt_le. intro N. apply (K y x) in N; [|lra|lra]. specialize (Hy y Hyb). lra.
Qed.
Print Assumptions C118_inner.

Lemma cdf_form gamma b s : 0 <= b -> 0 < s -> brody_cdf gamma b s = 1 - exp (- (brody_alpha gamma b * Rpower s (b + 1))).
Proof. intros Hb Hs. unfold brody_cdf. rewrite npow_pos by exact Hs. do 2 f_equal. ring. Qed.

(** The estimator is not maximum spacing estimation, which also counts the increments below the smallest and above the largest spacing:
    for any two parameters b < b' there is a sample on which the code prefers b' and the product of all spacings prefers b. *)
Theorem C118_outer_refuted : forall (gamma : R -> R) (b b' : R), GammaFunction gamma -> 0 <= b -> b < b' -> b' <= 1 ->
  exists s, StronglySorted Rlt s /\ List.Forall (fun x => 0 < x) s /\
    spacing_objective gamma s b' < spacing_objective gamma s b /\
    AllSpacings (brody_cdf gamma b') s < AllSpacings (brody_cdf gamma b) s.
Proof.
  intros gamma b b' HG H0 Hlt H1. assert (0 <= b <= 1) as Hb by lra. assert (0 <= b' <= 1) as Hb' by lra.
  pose proof (alpha_pos gamma HG b Hb) as Pa. pose proof (alpha_pos gamma HG b' Hb') as Pa'.
  set (al := brody_alpha gamma b) in *. set (al' := brody_alpha gamma b') in *. set (d := b' - b). assert (0 < d) as Hd by (unfold d; lra).
  (* a large spacing: the tail of b' is the lighter one *)
  set (h := Rpower (2 * (al / al')) (/ d)). assert (0 < al / al') as Pq by (apply Rdiv_lt_0_compat; lra).
  assert (0 < h) as Ph by apply Rpower_pos.
  assert (al * Rpower h (b + 1) < al' * Rpower h (b' + 1)) as Hh.
  { replace (b' + 1) with ((b + 1) + d) by (unfold d; ring). rewrite (Rpower_plus (b + 1) d h).
    assert (Rpower h d = 2 * (al / al')) as -> by (unfold h; rewrite Rpower_mult, Rinv_l, Rpower_1; lra).
    pose proof (Rpower_pos h (b + 1)) as Q. replace (al' * (Rpower h (b + 1) * (2 * (al / al')))) with (2 * (al * Rpower h (b + 1))) by (field; lra). nra. }
  set (Fh := brody_cdf gamma b h). set (Fh' := brody_cdf gamma b' h).
  assert (Fh < Fh') as HF. { unfold Fh, Fh'. rewrite !cdf_form by lra. fold al al'. apply Rplus_lt_compat_l, Ropp_lt_contravar, exp_increasing. lra. }
  assert (0 < Fh) as PF by (unfold Fh; rewrite <- (brody_cdf_0 gamma b Hb); apply brody_cdf_incr; auto; lra).
  assert (Fh' < 1) as QF by (apply (brody_cdf_range gamma HG b' h Hb'); lra).
  (* a small spacing *)
  set (eps := Rmin (Rmin (Rpower (/ al) (/ (b + 1))) (Rpower (Fh * al / (8 * al')) (/ d))) (Rmin (Rpower (Fh / 2 / al) (/ (b + 1))) (Rpower ((Fh' - Fh) / al') (/ (b' + 1))))).
  assert (0 < eps) as Pe by (unfold eps; repeat apply Rmin_glb_lt; apply Rpower_pos).
  set (a := Rmin (eps / 2) (h / 2)). assert (0 < a) as Pa0 by (unfold a; apply Rmin_glb_lt; lra).
  assert (a < eps) as Hae by (unfold a; pose proof (Rmin_l (eps / 2) (h / 2)); lra). assert (a < h) as Hah by (unfold a; pose proof (Rmin_r (eps / 2) (h / 2)); lra).
  assert (Rpower a (b + 1) < / al) as A1.
  { apply Rpower_small; [lra|now apply Rinv_0_lt_compat|exact Pa0|]. eapply Rlt_le_trans; [exact Hae|]. unfold eps. eapply Rle_trans; apply Rmin_l. }
  assert (Rpower a d < Fh * al / (8 * al')) as A2.
  { apply Rpower_small; [exact Hd|apply Rdiv_lt_0_compat; nra|exact Pa0|]. eapply Rlt_le_trans; [exact Hae|]. unfold eps. eapply Rle_trans; [apply Rmin_l|apply Rmin_r]. }
  assert (Rpower a (b + 1) < Fh / 2 / al) as A3.
  { apply Rpower_small; [lra|apply Rdiv_lt_0_compat; lra|exact Pa0|]. eapply Rlt_le_trans; [exact Hae|]. unfold eps. eapply Rle_trans; [apply Rmin_r|apply Rmin_l]. }
  assert (Rpower a (b' + 1) < (Fh' - Fh) / al') as A4.
  { apply Rpower_small; [lra|apply Rdiv_lt_0_compat; lra|exact Pa0|]. eapply Rlt_le_trans; [exact Hae|]. unfold eps. eapply Rle_trans; [apply Rmin_r|apply Rmin_r]. }
  set (u := al * Rpower a (b + 1)). set (u' := al' * Rpower a (b' + 1)).
  assert (0 < u) as Pu by (apply Rmult_lt_0_compat; [lra|apply Rpower_pos]). assert (0 < u') as Pu' by (apply Rmult_lt_0_compat; [lra|apply Rpower_pos]).
  assert (u < 1) as U1. { unfold u. apply (Rmult_lt_compat_l al) in A1; [|lra]. rewrite Rinv_r in A1; lra. }
  assert (u < Fh / 2) as U3. { unfold u. apply (Rmult_lt_compat_l al) in A3; [|lra]. replace (al * (Fh / 2 / al)) with (Fh / 2) in A3 by (field; lra). exact A3. }
  assert (u' < Fh' - Fh) as U4. { unfold u'. apply (Rmult_lt_compat_l al') in A4; [|lra]. replace (al' * ((Fh' - Fh) / al')) with (Fh' - Fh) in A4 by (field; lra). exact A4. }
  assert (u' < u * Fh / 8) as U2.
  { unfold u', u. replace (b' + 1) with ((b + 1) + d) by (unfold d; ring). rewrite (Rpower_plus (b + 1) d a). pose proof (Rpower_pos a (b + 1)) as Q.
    replace (al' * (Rpower a (b + 1) * Rpower a d)) with (Rpower a (b + 1) * (al' * Rpower a d)) by ring. replace (al * Rpower a (b + 1) * Fh / 8) with (Rpower a (b + 1) * (al * Fh / 8)) by field.
    apply Rmult_lt_compat_l; [exact Q|]. apply (Rmult_lt_compat_l al') in A2; [|lra]. replace (al' * (Fh * al / (8 * al'))) with (al * Fh / 8) in A2 by (field; lra). exact A2. }
  set (Fa := brody_cdf gamma b a). set (Fa' := brody_cdf gamma b' a).
  assert (Fa = 1 - exp (- u)) as EFa by (unfold Fa; rewrite cdf_form by lra; reflexivity). assert (Fa' = 1 - exp (- u')) as EFa' by (unfold Fa'; rewrite cdf_form by lra; reflexivity).
  assert (forall t, 1 - t <= exp (- t)) as Elow by (intro t; pose proof (exp_ineq1_le (- t)); lra).
  assert (Fa <= u) as B1 by (rewrite EFa; pose proof (Elow u); lra). assert (Fa' <= u') as B2 by (rewrite EFa'; pose proof (Elow u'); lra).
  assert (u / 2 <= Fa) as B3.
  { rewrite EFa. pose proof (exp_ineq1_le u) as X. rewrite exp_Ropp. assert (/ exp u <= / (1 + u)) by (apply Rinv_le_contravar; lra). 
    assert (/ (1 + u) <= 1 - u / 2); [|lra]. apply (Rmult_le_reg_l (1 + u)); [lra|]. rewrite Rinv_r by lra. nra. }
  assert (0 < Fa') as B4 by (unfold Fa'; rewrite <- (brody_cdf_0 gamma b' Hb'); apply brody_cdf_incr; auto; lra).
  exists [a; h]. assert (StronglySorted Rlt [a; h]) as SS by (repeat constructor; exact Hah). assert (List.Forall (fun x => 0 < x) [a; h]) as FP by (repeat constructor; assumption).
  split; [exact SS|]. split; [exact FP|]. split.
  - assert (List.Forall (fun x => 0 <= x) [a; h]) as FN by (repeat constructor; lra).
    destruct (C118_inner gamma [a; h] [a; h] HG ltac:(discriminate) (Permutation_refl _) SS FN) as [K _]. apply K; [exact Hb'|exact Hb|].
    unfold InnerSpacings, Product. cbn [map Gaps fold_right]. fold Fa Fa' Fh Fh'. lra.
  - unfold AllSpacings, Product. cbn [map app Gaps fold_right]. fold Fa Fa' Fh Fh'. rewrite !Rmult_1_r, !Rminus_0_r.
    assert (0 < Fa) as B5 by lra. assert (Fa' < Fa * (Fh - Fa)) as C1.
    { assert (Fh / 2 <= Fh - Fa) by lra. assert (u / 2 * (Fh / 2) <= Fa * (Fh - Fa)) by (apply Rmult_le_compat; lra). nra. }
    assert (Fa' * ((Fh' - Fa') * (1 - Fh')) < Fa' * (1 - Fh)) as C2.
    { apply Rmult_lt_compat_l; [exact B4|]. assert ((Fh' - Fa') * (1 - Fh') <= 1 * (1 - Fh')) by (apply Rmult_le_compat_r; lra). lra. }
    assert (Fa' * (1 - Fh) < Fa * (Fh - Fa) * (1 - Fh)) as C3 by (apply Rmult_lt_compat_r; lra). lra.
Qed.
Print Assumptions C118_outer_refuted.

(** Repeated spacings: all the increments of a sample of equal spacings are zero and left out, so the objective is zero for every
    parameter and the fit is whatever the optimizer makes of a constant function. *)
Theorem C118_ties_refuted : forall (gamma : R -> R) (x : R) (n : nat) (b b' : R), spacing_objective gamma (repeat x n) b = spacing_objective gamma (repeat x n) b'.
Proof.
  assert (forall gamma x n b, spacing_objective gamma (repeat x n) b = 0) as K; [|intros; now rewrite !K].
  intros gamma x n b. unfold spacing_objective. cbv zeta.
  assert (np_sort (repeat x n) = repeat x n) as ->.
  { apply np_sort_id, Ascending_NpLe; [apply notnan_R|]. apply StronglySorted_R. induction n as [|n IH]; constructor; [exact IH|].
    apply Forall_forall. intros y Hy. apply repeat_spec in Hy. lra. }
  rewrite ndiff_Gaps. assert (positives (Gaps (map (brody_cdf gamma b) (repeat x n))) = []) as ->.
  { induction n as [|[|n] IH]; try reflexivity. 
    change (Gaps (map (brody_cdf gamma b) (repeat x (S (S n))))) with ((brody_cdf gamma b x - brody_cdf gamma b x) :: Gaps (map (brody_cdf gamma b) (repeat x (S n)))).
    unfold positives in *. cbn [filter]. destruct (nlt n0 _) eqn:E; [|exact IH]. apply nlt_R_true in E. cbn in E. lra. }
  cbn. unfold Rdiv. ring.
Qed.
Print Assumptions C118_ties_refuted.

(** The spacings 2 and 1: the increment between them is larger for beta = 1 than for beta = 0. *)
Example C118_case : forall gamma, GammaFunction gamma ->
  InnerSpacings (brody_cdf gamma 0) [1; 2] < InnerSpacings (brody_cdf gamma 1) [1; 2] /\ spacing_objective gamma [2; 1] 1 < spacing_objective gamma [2; 1] 0.
Proof.
  intros gamma HG. assert (StronglySorted Rlt [1; 2]) as SS by (repeat constructor; lra). assert (List.Forall (fun x => 0 <= x) [1; 2]) as FN by (repeat constructor; lra).
  assert (InnerSpacings (brody_cdf gamma 0) [1; 2] < InnerSpacings (brody_cdf gamma 1) [1; 2]) as H.
  { unfold InnerSpacings, Product. cbn [map Gaps fold_right]. rewrite !cdf_form by lra. rewrite (alpha_form gamma HG 0), (alpha_form gamma HG 1) by lra.
    replace ((0 + 2) / (0 + 1)) with 2 by field. replace ((1 + 2) / (1 + 1)) with (3 / 2) by field. rewrite (gamma_2 gamma HG), (gamma_3_2 gamma HG).
    rewrite !Rplus_0_l, !Rpower_1 by lra. replace (1 + 1) with (INR 2) by (cbn; lra). pose proof PI_RGT_0 as HP. assert (0 < sqrt PI) by now apply sqrt_lt_R0.
    rewrite !Rpower_pow by lra. replace ((sqrt PI / 2) ^ 2) with (PI / 4) by (cbn [pow]; pose proof (sqrt_sqrt PI ltac:(lra)); nra).
    set (x := exp (- (PI / 4))). set (y := exp (- (1))). replace (- (PI / 4 * 1 ^ 2)) with (- (PI / 4)) by (cbn; ring). replace (- (1 * 1)) with (- (1)) by ring. fold x y.
    replace (exp (- (1 * 2))) with (y * y) by (unfold y; rewrite <- exp_plus; f_equal; ring).
    replace (exp (- (PI / 4 * 2 ^ 2))) with (x * x * (x * x)) by (unfold x; rewrite <- !exp_plus; f_equal; cbn; field).
    pose proof PI_bounds as [P1 P2].
    assert (/ 3 <= x) as X1.
    { unfold x. rewrite exp_Ropp. apply Rinv_le_contravar; [apply exp_pos|]. apply Rle_trans with (exp 1); [|apply exp_le_3].
      left; apply exp_increasing; lra. }
    assert (x <= 0.561) as X2.
    { unfold x. rewrite exp_Ropp. pose proof (exp_ineq1_le (PI / 4)). apply Rle_trans with (/ (1.785)); [|lra]. apply Rinv_le_contravar; lra. }
    assert (y - y * y <= 1 / 4) by (pose proof (pow2_ge_0 (y - / 2)); cbn in *; nra).
    assert (x * x <= 0.315) by nra. assert (x * x * x <= 0.18) by nra. replace (x * x * (x * x)) with (x * (x * x * x)) by ring. nra. }
  split; [exact H|]. destruct (C118_inner gamma [2; 1] [1; 2] HG ltac:(discriminate) (perm_swap 1 2 []) SS FN) as [K _]. apply K; [lra|lra|exact H].
Qed.
