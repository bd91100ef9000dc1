(** Properties C51-C53, C71: the Brody family and its fit. *)
From Coq Require Import String Ascii List ZArith Bool Arith Lia Reals Lra Sorting.Permutation.
From Coquelicot Require Import Coquelicot.
From Verif Require Import Base S_Order S_EigVals S_Trim M_EigVals M_Quad M_Compare S_Quad S_Compare P_Order P_EigVals P_TrimStat P_Quad P_Ols P_Compare P_Gauss M_Ensemble S_Ensemble P_Ensemble S_Brody P_Brody M_Brody.
Import ListNotations.
Local Open Scope R_scope.
Local Notation length := List.length.

Lemma nlt_R_true (x y : R) : nlt x y = true <-> x < y.
Proof. cbn. destruct (Rlt_dec x y); split; intros; auto; discriminate. Qed.

(** ** C51 *)
Theorem C51_law (gamma : R -> R) (beta : R) : GammaFunction gamma -> 0 <= beta <= 1 ->
  (forall s, 0 < s -> 0 < brody_dist gamma beta s) /\ (forall s, 0 < s -> is_derive (brody_cdf gamma beta) s (brody_dist gamma beta s)) /\
  (forall s t, 0 <= s -> s < t -> brody_cdf gamma beta s < brody_cdf gamma beta t) /\ (forall s, 0 <= s -> 0 <= brody_cdf gamma beta s < 1) /\
  brody_cdf gamma beta 0 = 0 /\ is_lim (brody_cdf gamma beta) p_infty 1.
Proof.
  intros HG Hb. split; [intros; now apply brody_dist_pos|]. split; [intros; now apply brody_cdf_derive|]. split; [intros; now apply brody_cdf_incr|].
  split; [intros; now apply brody_cdf_range|]. split; [now apply brody_cdf_0|now apply brody_cdf_lim].
Qed.
Print Assumptions C51_law.
Theorem C51_endpoints (gamma : R -> R) : GammaFunction gamma -> forall s, 0 <= s -> brody_dist gamma 0 s = nnsd_at Poisson s /\ brody_dist gamma 1 s = nnsd_at GOE s.
Proof.
  intros HG s Hs. destruct (Req_dec s 0) as [->|G].
  - unfold nnsd_at, brody_dist, npow. cbv zeta. destruct (Rlt_dec 0 0); [lra|]. destruct (Req_EM_T 0 0); [|lra]. destruct (Req_EM_T (0 + 1) 0); [lra|]. destruct (Req_EM_T 1 0); [lra|]. destruct (Req_EM_T (1 + 1) 0); [lra|].
    assert (A : brody_alpha gamma 0 = 1).
    { rewrite (alpha_form gamma HG) by lra. replace ((0 + 2) / (0 + 1)) with 2 by field. rewrite (gamma_2 gamma HG). replace (0 + 1) with 1 by ring. apply Rpower_1. lra. }
    rewrite A, !Rmult_0_r, Ropp_0, exp_0. split; field.
  - split; [apply brody_0|apply brody_1]; auto; lra.
Qed.
Print Assumptions C51_endpoints.
(** The scale alpha is the one that makes the law a density of mean one. *)
Theorem C51_mean (gamma : R -> R) (beta : R) : GammaFunction gamma -> 0 <= beta <= 1 -> HalfLine (brody_dist gamma beta) 1 /\ MeanOne (brody_dist gamma beta).
Proof.
  intros HG Hb. destruct (Req_dec beta 0) as [->|G].
  - assert (E : forall s, 0 < s -> exp (- s) = brody_dist gamma 0 s) by (intros; symmetry; now apply brody_0).
    split; [apply (halfline_ext _ _ _ exp_halfline); exact E|]. unfold MeanOne.
    assert (HS : HalfLine (gam 2) 1) by (rewrite <- (gamma_2 gamma HG); apply gamma_halfline; [exact HG|lra]). apply (halfline_ext _ _ _ HS). intros s Hs.
    unfold gam. rewrite PosPow_pos by exact Hs. replace (2 - 1) with 1 by ring. rewrite Rpower_1 by exact Hs. now rewrite E.
  - split; [apply brody_mass|apply brody_mean]; auto; lra.
Qed.
Print Assumptions C51_mean.
(** Non-vacuity: Euler's integral converges on (1,2], so such a Gamma function exists, and it has the expected values. *)
Example C51_ex : exists gamma, GammaFunction gamma /\ gamma 2 = 1 /\ gamma (3 / 2) = sqrt PI / 2 /\ 0 < brody_dist gamma (1 / 2) 1.
Proof.
  destruct gamma_exists as (gamma & HG). exists gamma. split; [exact HG|]. split; [now apply gamma_2|]. split; [now apply gamma_3_2|]. apply brody_dist_pos; [exact HG|lra|lra].
Qed.

(** ** C52 *)
Lemma positives_pos l : List.Forall (fun x => 0 < x) l -> positives l = l.
Proof. induction 1 as [|x l H _ IH]; [reflexivity|]. unfold positives in *. cbn [filter]. replace (nlt n0 x) with true by (symmetry; now apply nlt_R_true). now rewrite IH. Qed.
Lemma positives_Forall l : List.Forall (fun x => 0 < x) (positives l).
Proof. apply Forall_forall. intros x Hx. apply filter_In in Hx as (_ & Hx). now apply nlt_R_true in Hx. Qed.
(** Every returned value exceeds the logarithm of the density by 2 alpha s^(beta+1) > 0. *)
Theorem C52_log_refuted (gamma : R -> R) (beta : R) (s : list R) : GammaFunction gamma -> 0 <= beta <= 1 -> List.Forall (fun x => 0 < x) s ->
  log_brody gamma beta s = map (fun x => ln (brody_dist gamma beta x) + 2 * brody_alpha gamma beta * Rpower x (beta + 1)) s /\
  forall i, (i < length s)%nat -> nth i (log_brody gamma beta s) 0 <> nth i (map (fun x => ln (brody_dist gamma beta x)) s) 0.
Proof.
  intros HG Hb Hs. pose proof (alpha_pos gamma HG beta Hb) as Ap. assert (E : log_brody gamma beta s = map (fun x => ln (brody_dist gamma beta x) + 2 * brody_alpha gamma beta * Rpower x (beta + 1)) s).
  { unfold log_brody. cbv zeta. rewrite positives_pos by exact Hs. induction Hs as [|x l Hx _ IH]; [reflexivity|]. cbn [map combine]. rewrite IH. f_equal. cbn [fst snd]. unfold brody_dist. cbv zeta. rewrite !npow_pos by exact Hx.
    pose proof (Rpower_pos x beta) as Q. rewrite (ln_mult _ (exp _)); [|apply Rmult_lt_0_compat; [apply Rmult_lt_0_compat; lra|exact Q]|apply exp_pos]. rewrite (ln_mult _ (Rpower x beta)); [|apply Rmult_lt_0_compat; lra|exact Q].
    rewrite ln_exp. assert (EL : ln (Rpower x beta) = beta * ln x) by (unfold Rpower; apply ln_exp). rewrite EL. ring. }
  split; [exact E|]. intros i Hi. rewrite E. rewrite Forall_forall in Hs. pose proof (Hs _ (nth_In s 0 Hi)) as Hx.
  rewrite !(nth_map_in _ s i 0 0) by exact Hi. pose proof (Rpower_pos (nth i s 0) (beta + 1)) as Q. pose proof (Rmult_lt_0_compat _ _ Ap Q). lra.
Qed.
Print Assumptions C52_log_refuted.
Example C52_ex gamma : GammaFunction gamma -> log_brody gamma 0 [1] = [1] /\ ln (brody_dist gamma 0 1) = -1.
Proof.
  intros HG. assert (A : brody_alpha gamma 0 = 1).
  { rewrite (alpha_form gamma HG) by lra. replace ((0 + 2) / (0 + 1)) with 2 by field. rewrite (gamma_2 gamma HG). replace (0 + 1) with 1 by ring. apply Rpower_1. lra. }
  assert (E : ln (brody_dist gamma 0 1) = - 1) by (rewrite brody_0 by (auto; lra); apply ln_exp).
  split; [|exact E]. destruct (C52_log_refuted gamma 0 [1] HG ltac:(lra) ltac:(repeat constructor; lra)) as (-> & _). cbn [map]. rewrite E, A. replace (0 + 1) with 1 by ring. rewrite Rpower_1 by lra. f_equal. ring.
Qed.

(** ** C53 *)
Lemma lower_letter a b : (97 <= nat_of_ascii b <= 122)%nat -> (lower_ascii a = b <-> SameLetter a b).
Proof.
  intros Hb. unfold lower_ascii, SameLetter. cbv zeta. pose proof (nat_ascii_bounded a) as Ba. destruct (Nat.leb_spec 65 (nat_of_ascii a)), (Nat.leb_spec (nat_of_ascii a) 90); cbn [andb].
  - split.
    + intros <-. right. left. split; [lia|]. apply nat_ascii_embedding. lia.
    + intros [E|[(_ & E)|(E1 & E2)]]; try lia. rewrite <- E. apply ascii_nat_embedding.
  - split; [intros ->; now left|]. intros [E|[(E & _)|(E1 & E2)]]; try lia. rewrite <- (ascii_nat_embedding a), E. apply ascii_nat_embedding.
  - split; [intros ->; now left|]. intros [E|[(E & _)|(E1 & E2)]]; lia.
  - lia.
Qed.
Fixpoint all_lower (s : string) : bool := match s with EmptyString => true | String a t => Nat.leb 97 (nat_of_ascii a) && Nat.leb (nat_of_ascii a) 122 && all_lower t end.
Lemma lower_same t : all_lower t = true -> forall s, lower s = t <-> SameUpToCase s t.
Proof.
  induction t as [|b t IH]; intros Ht s.
  - destruct s; cbn; split; intros; try discriminate; try tauto.
  - cbn [all_lower] in Ht. apply andb_prop in Ht as (Ht1 & Ht2). apply andb_prop in Ht1 as (H1 & H2). apply Nat.leb_le in H1, H2. destruct s as [|a s]; cbn [lower SameUpToCase]; [split; [discriminate|tauto]|].
    rewrite <- (IH Ht2 s), <- (lower_letter a b) by lia. split; [intros E; injection E; auto|intros (-> & ->); reflexivity].
Qed.
(** Dispatch: case-insensitive; any other method raises; otherwise the optimizer's answer for the objective of that method. *)
Theorem C53_dispatch gamma (opt : (R -> R) -> R -> R -> bool * R) (s : list R) (method : string) :
  let run (f : R -> R) : result R := if fst (opt f (1 / 100000) (1 - 1 / 100000)) then Ok (snd (opt f (1 / 100000) (1 - 1 / 100000))) else Raise RuntimeError in
  (SameUpToCase method "spacing" \/ SameUpToCase method "spacings" -> fit_brody gamma opt s method = run (spacing_objective gamma s)) /\
  (SameUpToCase method "mle" -> fit_brody gamma opt s method = run (mle_objective gamma s)) /\
  (~ SameUpToCase method "spacing" -> ~ SameUpToCase method "spacings" -> ~ SameUpToCase method "mle" -> fit_brody gamma opt s method = Raise ValueError).
Proof.
  intros run. rewrite <- !lower_same by reflexivity. assert (O : forall f, optimize opt f = run f) by (intros f; unfold optimize, run; destruct (opt f _ _); reflexivity). unfold fit_brody. cbv zeta. rewrite !O.
  destruct (String.eqb_spec (lower method) "spacing") as [E|E]; [rewrite E; cbn [orb]; repeat split; auto; [discriminate|tauto]|].
  destruct (String.eqb_spec (lower method) "spacings") as [E2|E2]; [rewrite E2; cbn [orb]; repeat split; auto; [discriminate|tauto]|]. cbn [orb].
  destruct (String.eqb_spec (lower method) "mle") as [E3|E3]; repeat split; auto; tauto.
Qed.
Print Assumptions C53_dispatch.
Lemma Rmean_le (l : list R) c : l <> [] -> List.Forall (fun x => x <= c) l -> Rmean l <= c.
Proof.
  intros Hl H. rewrite Rmean_INR. assert (P : 0 < INR (length l)) by (apply lt_0_INR; destruct l; [congruence|cbn; lia]). apply (Rmult_le_reg_r (INR (length l))); [exact P|].
  unfold Rdiv. rewrite Rmult_assoc, Rinv_l, Rmult_1_r by lra. clear P. clear Hl. induction H as [|x l Hx _ IH]; [cbn; lra|]. rewrite Rsum_cons. cbn [List.length]. rewrite S_INR. lra.
Qed.
Lemma Rsum_le_map {A} (f g : A -> R) l : (forall x, In x l -> f x <= g x) -> Rsum (map f l) <= Rsum (map g l).
Proof. induction l as [|x l IH]; intros H; [cbn; lra|]. cbn [map]. rewrite !Rsum_cons. pose proof (H x (or_introl eq_refl)). assert (Rsum (map f l) <= Rsum (map g l)) by (apply IH; intros; apply H; now right). lra. Qed.
Lemma jensen (l : list R) : l <> [] -> Rmean l * Rmean l <= Rmean (map (fun x => x * x) l).
Proof.
  intros Hl. rewrite !Rmean_INR, map_length. assert (P : 0 < INR (length l)) by (apply lt_0_INR; destruct l; [congruence|cbn; lia]).
  assert (G : forall m, 0 <= Rsum (map (fun x => x * x) l) - 2 * m * Rsum l + INR (length l) * (m * m)).
  { intros m. replace (Rsum (map (fun x => x * x) l) - 2 * m * Rsum l + INR (length l) * (m * m)) with (Rsum (map (fun x => (x - m) * (x - m)) l)).
    - apply (Rsum_sq_nonneg (fun x => x - m)).
    - clear. induction l as [|x l IH]; [cbn; ring|]. cbn [map List.length]. rewrite !Rsum_cons, IH, S_INR. ring. }
  specialize (G (Rsum l / INR (length l))). set (S1 := Rsum l) in *. set (S2 := Rsum (map (fun x => x * x) l)) in *. set (n := INR (length l)) in *.
  apply (Rmult_le_reg_r n); [exact P|]. replace (S2 / n * n) with S2 by (field; lra). replace (S1 / n * (S1 / n) * n) with (S1 * S1 / n) by (field; lra).
  replace (S2 - 2 * (S1 / n) * S1 + n * (S1 / n * (S1 / n))) with (S2 - S1 * S1 / n) in G by (field; lra). lra.
Qed.
(** What C53 asks of a fit of the sample [s]. *)
Definition GoodFit (s : list R) (r : fit) : Prop :=
  Permutation s (f_spacings r) /\ Ascending (f_spacings r) /\ f_ecdf r = map (fun i => INR (S i) / INR (length s)) (seq 0 (length s)) /\
  length (f_cdf r) = length s /\ List.Forall (fun x => 0 <= x < 1) (f_cdf r) /\ 0 <= f_msqd r /\ f_msqd r <= f_mad r /\ f_mad r <= 1 /\ f_mad r * f_mad r <= f_msqd r.
Lemma ecdf_form n : (1 <= n)%nat -> linspace (1 / INR n) 1 n = map (fun i => INR (S i) / INR n) (seq 0 n).
Proof.
  intros Hn. destruct (Nat.eq_dec n 1) as [->|Hn1]; [reflexivity|]. rewrite linspace_even by lia. unfold EvenGrid. apply map_ext. intros i. rewrite S_INR.
  assert (2 <= INR n) by (replace 2 with (INR 2) by (cbn; ring); apply le_INR; lia). field. lra.
Qed.
(** For every non-empty sample of non-negative spacings and every optimizer that stays within [0,1]. *)
Theorem C53_evaluate gamma (opt : (R -> R) -> R -> R -> bool * R) (s : list R) (method : string) (r : fit) : GammaFunction gamma -> (forall f lo hi x, opt f lo hi = (true, x) -> 0 <= lo -> hi <= 1 -> 0 <= x <= 1) ->
  List.Forall (fun x => 0 <= x) s -> brody_fit_evaluate gamma opt s method = Ok r -> GoodFit s r.
Proof.
  intros HG Ho Hs. unfold brody_fit_evaluate. destruct (fit_brody gamma opt s method) as [beta|] eqn:Ef; [|discriminate]. cbn [bind].
  assert (Hb : 0 <= beta <= 1).
  { assert (O : forall f, optimize opt f = Ok beta -> 0 <= beta <= 1). { intros f E. unfold optimize in E. destruct (opt f _ _) as (b, x) eqn:Eo. destruct b; [|discriminate]. injection E as <-. eapply Ho; [exact Eo|lra|lra]. }
    unfold fit_brody in Ef. cbv zeta in Ef. destruct (_ || _); [now apply O in Ef|]. destruct (String.eqb _ _); [now apply O in Ef|discriminate]. }
  destruct (Nat.eqb_spec (length s) 0) as [|Hn]; [discriminate|]. cbv zeta. intros E. set (n := length s) in *. set (y := linspace (1 / INR n) 1 n) in *. set (c := map (brody_cdf gamma beta) (np_sort s)) in *.
  set (dev := map (fun p => fst p - snd p) (combine y c)) in *.
  assert (Er : r = mkfit beta (nmean (map Rabs dev)) (nmean (map square dev)) (np_sort s) y c) by congruence. subst r. unfold GoodFit. cbn [f_spacings f_ecdf f_cdf f_msqd f_mad].
  pose proof (np_sort_perm s) as Hp. assert (Lc : length c = n) by (unfold c; rewrite map_length; apply np_sort_length).
  assert (Ey : y = map (fun i => INR (S i) / INR n) (seq 0 n)) by (apply ecdf_form; lia). assert (Ly : length y = n) by (rewrite Ey, map_length; apply seq_length).
  assert (Hc : List.Forall (fun x => 0 <= x < 1) c).
  { apply Forall_map. apply Forall_forall. intros x Hx. apply brody_cdf_range; auto. rewrite Forall_forall in Hs. apply Hs. eapply Permutation_in; [symmetry; exact Hp|exact Hx]. }
  assert (Hy : List.Forall (fun x => 0 <= x <= 1) y).
  { rewrite Ey. apply Forall_map, Forall_forall. intros i Hi. apply in_seq in Hi. assert (P : 0 < INR n) by (apply lt_0_INR; lia). split; [apply Rlt_le, Rdiv_lt_0_compat; [apply lt_0_INR; lia|exact P]|].
    apply (Rmult_le_reg_r (INR n)); [exact P|]. unfold Rdiv. rewrite Rmult_assoc, Rinv_l by lra. rewrite Rmult_1_r, Rmult_1_l. apply le_INR. lia. }
  assert (Hd : List.Forall (fun d => Rabs d <= 1) dev).
  { apply Forall_map, Forall_forall. intros (u, v) Huv. rewrite Forall_forall in Hc, Hy. pose proof (Hy u (in_combine_l _ _ _ _ Huv)). pose proof (Hc v (in_combine_r _ _ _ _ Huv)). cbn [fst snd]. apply Rabs_le. lra. }
  assert (Ld : length dev = n) by (unfold dev; rewrite map_length, combine_length; lia). assert (Nd : dev <> []) by (intros E0; rewrite E0 in Ld; cbn in Ld; lia).
  split; [exact Hp|]. split; [apply np_sort_ascending, notnan_R|]. split; [exact Ey|]. split; [exact Lc|]. split; [exact Hc|]. rewrite !nmean_R. 
  assert (Esq : map square dev = map (fun x => x * x) (map Rabs dev)). { rewrite map_map. apply map_ext. intros x. unfold square. cbn [nmul Num_R]. pose proof (Rsqr_abs x) as Q. unfold Rsqr in Q. exact Q. }
  rewrite Esq. assert (Na : map Rabs dev <> []) by (destruct dev; [congruence|discriminate]). assert (Ha : List.Forall (fun x => 0 <= x <= 1) (map Rabs dev)).
  { apply Forall_map. revert Hd. apply Forall_impl. intros x Hx. split; [apply Rabs_pos|exact Hx]. } clear - Na Ha. set (a := map Rabs dev) in *.
  split; [apply Rmean_nonneg; apply Forall_map, Forall_forall; intros x Hx; rewrite Forall_forall in Ha; pose proof (Ha x Hx); apply Rmult_le_pos; lra|].
  split; [|split; [apply Rmean_le; [exact Na|revert Ha; apply Forall_impl; intros x Hx; lra]|now apply jensen]].
  rewrite !Rmean_INR, map_length. apply Rmult_le_compat_r; [apply Rlt_le, Rinv_0_lt_compat, lt_0_INR; destruct a; [congruence|cbn; lia]|]. rewrite <- (map_id a) at 2. apply Rsum_le_map. intros x Hx. rewrite Forall_forall in Ha.
  pose proof (Ha x Hx). rewrite <- (Rmult_1_r x) at 3. apply Rmult_le_compat_l; lra.
Qed.
Print Assumptions C53_evaluate.
(** Unfolded.fit_brody drops non-positive spacings first, so no condition on them is needed. *)
Theorem C53_unfolded gamma (opt : (R -> R) -> R -> R -> bool * R) (s : list R) (method : string) (r : fit) : GammaFunction gamma -> (forall f lo hi x, opt f lo hi = (true, x) -> 0 <= lo -> hi <= 1 -> 0 <= x <= 1) ->
  unfolded_fit_brody gamma opt s method = Ok r -> GoodFit (filter (fun x => if Rlt_dec 0 x then true else false) s) r.
Proof.
  intros HG Ho H. assert (E : positives s = filter (fun x => if Rlt_dec 0 x then true else false) s).
  { unfold positives. apply filter_ext. intros x. destruct (Rlt_dec 0 x) as [G|G]; [now apply nlt_R_true|]. destruct (nlt n0 x) eqn:E; [|reflexivity]. apply nlt_R_true in E. cbn in E. lra. }
  rewrite <- E. apply (C53_evaluate gamma opt _ method); auto. eapply Forall_impl; [|apply positives_Forall]. intros x Hx. cbn in Hx. lra.
Qed.
Print Assumptions C53_unfolded.
Example C53_ex gamma : GammaFunction gamma -> SameUpToCase "MLE" "mle" /\ (exists r, unfolded_fit_brody gamma (fun _ _ _ => (true, 1 / 2)) [2; -1; 1] "Mle" = Ok r /\ length (f_spacings r) = 2%nat /\ f_beta r = 1 / 2) /\
  unfolded_fit_brody gamma (fun _ _ _ => (true, 1 / 2)) [2; -1; 1] "mse" = Raise ValueError /\ unfolded_fit_brody gamma (fun _ _ _ => (false, 1 / 2)) [2; -1; 1] "spacings" = Raise RuntimeError.
Proof.
  intros HG. split; [cbn; unfold SameLetter; cbn; repeat split; lia|].
  assert (P : positives [2; -1; 1] = [2; 1]).
  { unfold positives. cbn [filter]. replace (nlt n0 2) with true by (symmetry; apply nlt_R_true; cbn; lra). replace (nlt n0 1) with true by (symmetry; apply nlt_R_true; cbn; lra).
    replace (nlt n0 (-1)) with false; [reflexivity|]. destruct (nlt n0 (-1)) eqn:E; [|reflexivity]. apply nlt_R_true in E. cbn in E. lra. }
  unfold unfolded_fit_brody, brody_fit_evaluate. rewrite P. split; [|split; reflexivity]. eexists. split; [reflexivity|]. cbn [f_spacings f_beta]. split; [apply (np_sort_length [2; 1])|reflexivity].
Qed.

(** ** C71 *)
(** fit_brody_mle minimises minus the sum of the densities, not of their logarithms: there are samples of positive spacings for which
    its objective prefers beta = 1 although beta = 0 has the larger likelihood. *)
Definition Likelihood (p : R -> R) (s : list R) : R := fold_right Rmult 1 (map p s).
Theorem C71_mle_refuted (gamma : R -> R) : GammaFunction gamma -> exists s, List.Forall (fun x => 0 < x) s /\
  mle_objective gamma s 1 < mle_objective gamma s 0 /\ Likelihood (brody_dist gamma 1) s < Likelihood (brody_dist gamma 0) s.
Proof.
  intros HG. pose proof PI_RGT_0 as HP. pose proof PI2_1 as HP2. pose proof PI_4 as HP4. set (g := brody_dist gamma 1 1). set (p := exp (- (1))).
  assert (Hp : 0 < p) by apply exp_pos. assert (Hg : p < g).
  { unfold g. rewrite brody_1 by (auto; lra). assert (p <= exp (- (PI / 4) * 1 * 1)). { unfold p. destruct (Req_dec PI 4) as [E|E]; [rewrite E; right; f_equal; field|left; apply exp_increasing; lra]. }
    apply Rlt_le_trans with (PI / 2 * p); [rewrite <- (Rmult_1_l p) at 1; apply Rmult_lt_compat_r; lra|]. replace (PI * 1 / 2) with (PI / 2) by field. apply Rmult_le_compat_l; lra. }
  destruct (archimed_cor1 (g - p) ltac:(lra)) as (m & Hm & Hm0).
  assert (K : 1 < INR m * (g - p)). { assert (Pm : 0 < INR m) by now apply lt_0_INR. apply (Rmult_lt_compat_l (INR m)) in Hm; [|exact Pm]. rewrite Rinv_r in Hm by lra. exact Hm. }
  set (eps := Rmin 1 (exp (- (1)) * p ^ m / (PI / 2 * g ^ m))). assert (Gm : 0 < g ^ m) by (apply pow_lt; lra). assert (Pm : 0 < p ^ m) by (apply pow_lt; lra).
  assert (De : 0 < PI / 2 * g ^ m) by (apply Rmult_lt_0_compat; lra). assert (Ep : 0 < exp (- (1)) * p ^ m / (PI / 2 * g ^ m)) by (apply Rdiv_lt_0_compat; [apply Rmult_lt_0_compat; [apply exp_pos|exact Pm]|exact De]).
  assert (He : 0 < eps) by (apply Rmin_glb_lt; lra). assert (He1 : eps <= 1) by apply Rmin_l. assert (He2 : eps <= exp (- (1)) * p ^ m / (PI / 2 * g ^ m)) by apply Rmin_r.
  set (t := eps / 2). assert (Ht : 0 < t < eps) by (unfold t; lra). exists (t :: repeat 1 m).
  assert (Bt : forall b, 0 <= b <= 1 -> 0 < brody_dist gamma b t) by (intros; apply brody_dist_pos; auto; lra).
  assert (Sum : forall (q : R -> R) c, Rsum (map q (repeat c m)) = INR m * q c). { intros q c. clear. induction m as [|m IH]; [cbn; ring|]. cbn [repeat map]. rewrite Rsum_cons, IH, S_INR. ring. }
  assert (Prod : forall (q : R -> R) c, fold_right Rmult 1 (map q (repeat c m)) = q c ^ m). { intros q c. clear. induction m as [|m IH]; [reflexivity|]. cbn [repeat map fold_right pow]. now rewrite IH. }
  assert (P0 : brody_dist gamma 0 1 = p) by (rewrite brody_0 by (auto; lra); reflexivity).
  split; [constructor; [lra|]; apply Forall_forall; intros x Hx; apply repeat_spec in Hx; lra|]. split.
  - unfold mle_objective. rewrite !nsum_R. apply Ropp_lt_contravar. cbn [map]. rewrite !Rsum_cons, !Sum, P0. fold g. pose proof (Bt 1 ltac:(lra)).
    assert (brody_dist gamma 0 t <= 1). { rewrite brody_0 by (auto; lra). rewrite <- exp_0. left. apply exp_increasing. lra. } lra.
  - unfold Likelihood. cbn [map fold_right]. rewrite !Prod, P0. fold g. rewrite brody_0, brody_1 by (auto; lra).
    assert (A : PI * t / 2 * exp (- (PI / 4) * t * t) <= PI / 2 * t).
    { assert (exp (- (PI / 4) * t * t) <= 1). { rewrite <- exp_0. left. apply exp_increasing. assert (0 < PI / 4 * (t * t)) by (apply Rmult_lt_0_compat; [lra|apply Rmult_lt_0_compat; lra]). lra. }
      replace (PI * t / 2) with (PI / 2 * t) by field. rewrite <- (Rmult_1_r (PI / 2 * t)) at 2. apply Rmult_le_compat_l; [apply Rmult_le_pos; lra|assumption]. }
    apply Rle_lt_trans with (PI / 2 * t * g ^ m); [apply Rmult_le_compat_r; lra|]. apply Rlt_le_trans with (exp (- (1)) * p ^ m).
    + assert (B : t < exp (- (1)) * p ^ m / (PI / 2 * g ^ m)) by lra. apply (Rmult_lt_compat_r (PI / 2 * g ^ m)) in B; [|exact De]. unfold Rdiv in B at 2. rewrite Rmult_assoc, Rinv_l, Rmult_1_r in B by lra. lra.
    + apply Rmult_le_compat_r; [lra|]. left. apply exp_increasing. lra.
Qed.
Print Assumptions C71_mle_refuted.
Example C71_ex : exists gamma s, GammaFunction gamma /\ mle_objective gamma s 1 < mle_objective gamma s 0 /\ Likelihood (brody_dist gamma 1) s < Likelihood (brody_dist gamma 0) s.
Proof. destruct gamma_exists as (gamma & HG). destruct (C71_mle_refuted gamma HG) as (s & _ & H). now exists gamma, s. Qed.
