(** Property C132: the spacing laws of independent levels. *)
From Coq Require Import List ZArith Bool Arith Lia Reals Lra Sorted Permutation.
From Coquelicot Require Import Coquelicot.
From Verif Require Import Base S_Order S_EigVals S_Trim M_EigVals M_Ensemble S_Loops S_Average S_Binomial P_Order P_EigVals P_Quad P_Draw T_NumberVariance T_RigidityMean T_PoissonCurve.
Import ListNotations.
Local Open Scope R_scope.
Local Notation length := List.length.

(** ** A gap is longer than h when few levels lie within h *)
Lemma asc_inv (x : R) l : Ascending (x :: l) -> Ascending l /\ List.Forall (fun y => x <= y) l.
Proof. intro H. inversion H; subst. split; [assumption|]. apply Forall_forall. intros y Hy. apply Le_R. now apply (proj1 (Forall_forall _ _) H3). Qed.
Lemma count_none (l : list R) lo hi : (forall y, In y l -> y < lo \/ hi < y) -> CountIn l lo hi = 0%nat.
Proof.
  induction l as [|y l IH]; intro H; [reflexivity|]. cbn [CountIn]. rewrite IH by (intros; apply H; now right). destruct (H y (or_introl eq_refl)); destruct (Rle_dec lo y), (Rle_dec y hi); lra || reflexivity.
Qed.
Lemma count_head (l : list R) lo hi : forall j, Ascending l -> (forall y, In y l -> lo <= y) -> (j < length l)%nat -> (CountIn l lo hi <= j)%nat <-> hi < nth j l 0.
Proof.
  induction l as [|x l IH]; intros j A G Hj; [cbn in Hj; lia|]. destruct (asc_inv x l A) as (A' & B). assert (Bx : forall y, In y l -> x <= y) by (intros y Hy; now apply (proj1 (Forall_forall _ _) B)).
  destruct (Rlt_dec hi x) as [Hx|Hx].
  - rewrite count_none by (intros y [<-|Hy]; [now right|right; pose proof (Bx y Hy); lra]). split; [intros _|lia].
    destruct j; cbn [nth]; [exact Hx|]. assert (Hj' : (j < length l)%nat) by (cbn in Hj; lia). pose proof (Bx (nth j l 0) (nth_In l 0 Hj')). lra.
  - cbn [CountIn]. pose proof (G x (or_introl eq_refl)). destruct (Rle_dec lo x); [|lra]. destruct (Rle_dec x hi); [|lra]. destruct j as [|j]; cbn [nth]; [split; [lia|lra]|].
    rewrite <- (IH j A' (fun y Hy => G y (or_intror Hy)) ltac:(cbn in Hj; lia)). lia.
Qed.
Lemma count_gap (u : list R) h j : forall i, Ascending u -> NoDup u -> (i + j < length u)%nat -> (CountIn u (nth i u 0%R) (nth i u 0%R + h)%R <= j)%nat <-> h < nth (i + j) u 0 - nth i u 0.
Proof.
  induction u as [|x u IH]; intros i A D Hi; [cbn in Hi; lia|]. destruct (asc_inv x u A) as (A' & B). inversion D as [|? ? Nx D']; subst. destruct i as [|i].
  - rewrite (count_head (x :: u) (nth 0 (x :: u) 0) (nth 0 (x :: u) 0 + h) j A); [cbn [nth Nat.add]; split; lra| |exact Hi]. intros y [<-|Hy]; cbn [nth]; [lra|]. now apply (proj1 (Forall_forall _ _) B).
  - assert (Hl : (i < length u)%nat) by (cbn in Hi; lia). cbn [nth Nat.add CountIn]. pose proof (nth_In u 0 Hl) as Hn. pose proof (proj1 (Forall_forall _ _) B _ Hn) as Hx. cbv beta in Hx.
    destruct (Rle_dec (nth i u 0) x) as [E|_]; [exfalso; apply Nx; replace x with (nth i u 0) by lra; exact Hn|]. apply IH; [exact A'|exact D'|cbn in Hi; lia].
Qed.
Lemma count_perm (l l' : list R) lo hi : Permutation l l' -> CountIn l lo hi = CountIn l' lo hi.
Proof. induction 1; cbn [CountIn]; try lia; congruence. Qed.

(** C132. Among distinct levels, the spacing after the i-th level exceeds h exactly when no other level lies within h above it; the next-nearest one exactly when at most one does. *)
Theorem C132_gaps : forall (vals : list R) i h, NoDup vals -> let u := np_sort vals in let x := nth i u 0 in
  ((i + 1 < length vals)%nat -> h < nth i (spacings vals) 0 <-> (CountIn vals x (x + h)%R <= 1)%nat) /\
  ((i + 2 < length vals)%nat -> h < nth (i + 2) u 0 - nth i u 0 <-> (CountIn vals x (x + h)%R <= 2)%nat).
Proof.
  intros vals i h D u x. pose proof (sort_perm vals) as Pm. fold u in Pm. pose proof (Permutation_length Pm) as Pl. pose proof (sort_asc vals) as A. fold u in A.
  assert (D' : NoDup u) by (now apply (Permutation_NoDup Pm)). rewrite (count_perm vals u _ _ Pm). split; intro Hi.
  - unfold spacings. fold u. rewrite ndiff_nth by lia. unfold x. rewrite (count_gap u h 1 i A D' ltac:(lia)). now rewrite Nat.add_1_r.
  - unfold x. now rewrite (count_gap u h 2 i A D' ltac:(lia)).
Qed.
Print Assumptions C132_gaps.

(** ** Counts of independent levels follow the binomial law *)
Lemma choose_over n : forall k, (n < k)%nat -> Choose n k = 0%nat.
Proof. induction n as [|n IH]; intros [|k] H; try lia; [reflexivity|]. cbn [Choose]. rewrite !IH by lia. reflexivity. Qed.
Lemma choose_0 n : Choose n 0 = 1%nat. Proof. destruct n; reflexivity. Qed.
Lemma choose_1 n : Choose n 1 = n. Proof. induction n as [|n IH]; [reflexivity|]. cbn [Choose]. rewrite choose_0, IH. lia. Qed.
Lemma binomial_step k p j : Binomial (S k) p (S j) = p * Binomial k p j + (1 - p) * Binomial k p (S j).
Proof.
  unfold Binomial. cbn [Choose]. rewrite plus_INR. cbn [Nat.sub]. destruct (le_lt_dec (S j) k) as [H|H].
  - replace (k - j)%nat with (S (k - S j)) by lia. cbn [pow]. ring.
  - rewrite (choose_over k (S j)) by lia. cbn [INR pow]. ring.
Qed.
Lemma binomial_step0 k p : Binomial (S k) p 0 = (1 - p) * Binomial k p 0.
Proof. unfold Binomial. rewrite !choose_0, !Nat.sub_0_r. cbn [pow INR]. ring. Qed.

Definition hit (x h y : R) : bool := if Rle_dec x y then if Rle_dec y (x + h) then true else false else false.
Lemma hit_inside x h y : Indicator (hit x h y) = inside (x + h / 2) h y.
Proof. unfold hit, inside, Indicator. replace (x + h / 2 - h / 2) with x by field. replace (x + h / 2 + h / 2) with (x + h) by field. destruct (Rle_dec x y), (Rle_dec y (x + h)); reflexivity. Qed.
Lemma count_hit x h y l : CountIn (y :: l) x (x + h) = ((if hit x h y then 1 else 0) + CountIn l x (x + h))%nat.
Proof. cbn [CountIn]. unfold hit. destruct (Rle_dec x y), (Rle_dec y (x + h)); reflexivity. Qed.

(** C132. Of k independent levels uniform on [a, b], the number in [x, x + h] (inside [a, b]) follows the binomial law of k trials of probability h/(b - a). *)
Theorem C132_binomial : forall a b x h k j, 0 <= h -> a < b -> a <= x -> x + h <= b ->
  IsAverage k (fun l => Indicator (CountIn (map (fun t => a + (b - a) * t) l) x (x + h) =? j)) (Binomial k (h / (b - a)) j).
Proof.
  intros a b x h k j Hh Hab Ha Hb. set (p := h / (b - a)).
  assert (I : is_RInt (fun t => Indicator (hit x h (a + (b - a) * t))) 0 1 p).
  { pose proof (int_inside a b (x + h / 2) h Hh Hab ltac:(lra) ltac:(lra)) as J. eapply is_RInt_ext; [|exact J]. intros t _. symmetry. apply hit_inside. }
  revert j. induction k as [|k IH]; intro j; cbn [IsAverage].
  { cbn [map CountIn]. unfold Binomial. destruct j as [|j]; cbn; unfold Indicator; cbn; ring. }
  set (hd := fun t => hit x h (a + (b - a) * t)). set (up := match j with O => 0 | S j' => Binomial k p j' end).
  exists (fun t => Binomial k p j + Indicator (hd t) * (up - Binomial k p j)). split.
  - intro t. destruct (hd t) eqn:Eh; cbn [Indicator].
    + replace (Binomial k p j + 1 * (up - Binomial k p j)) with up by ring. unfold up. destruct j as [|j].
      * eapply average_ext; [|apply average_const]. intros l _. cbn [map]. rewrite count_hit. fold (hd t). rewrite Eh. reflexivity.
      * eapply average_ext; [|apply (IH j)]. intros l _. cbn [map]. rewrite count_hit. fold (hd t). rewrite Eh. reflexivity.
    + replace (Binomial k p j + 0 * (up - Binomial k p j)) with (Binomial k p j) by ring. eapply average_ext; [|apply (IH j)]. intros l _. cbn [map]. rewrite count_hit. fold (hd t). rewrite Eh. reflexivity.
  - assert (E : Binomial (S k) p j = Binomial k p j + (up - Binomial k p j) * p) by (unfold up; destruct j; [rewrite binomial_step0|rewrite binomial_step]; ring).
    rewrite E. eapply is_RInt_ext; [|exact (is_RInt_plus (V := R_NormedModule) _ _ _ _ _ _ (RInt_const01 (Binomial k p j)) (is_RInt_scal (V := R_NormedModule) _ _ _ (up - Binomial k p j) _ I))].
    intros t _. unfold plus, scal; cbn; unfold mult; cbn. fold (hd t). match goal with |- ?a = ?b => change (@eq R a b) end. ring.
Qed.
Print Assumptions C132_binomial.

(** ** The limit of many levels at unit density *)
Lemma exp_pow y k : exp y ^ k = exp (INR k * y).
Proof. induction k as [|k IH]; [cbn; now rewrite Rmult_0_l, exp_0|]. cbn [pow]. rewrite IH, <- exp_plus, S_INR. f_equal. ring. Qed.
Lemma power_bounds s k : 0 <= s < INR k -> exp (- (s * (INR k / (INR k - s)))) <= (1 - s / INR k) ^ k <= exp (- s).
Proof.
  intros (H0 & H1). set (y := s / INR k). assert (Hy : 0 <= y < 1) by (unfold y; split; [apply Rmult_le_pos; [lra|left; apply Rinv_0_lt_compat; lra]|apply (Rmult_lt_reg_r (INR k)); [lra|]; unfold Rdiv; rewrite Rmult_assoc, Rinv_l by lra; lra]).
  assert (Es : s = INR k * y) by (unfold y; field; lra). split.
  - replace (- (s * (INR k / (INR k - s)))) with (INR k * (- (y / (1 - y)))) by (rewrite Es; field; nra). rewrite <- exp_pow. apply pow_incr. split; [left; apply exp_pos|].
    pose proof (exp_ineq1_le (y / (1 - y))) as K. replace (1 + y / (1 - y)) with (/ (1 - y)) in K by (field; lra). rewrite exp_Ropp. replace (1 - y) with (/ / (1 - y)) at 2 by (field; lra). apply Rinv_le_contravar; [apply Rinv_0_lt_compat; lra|exact K].
  - replace (- s) with (INR k * (- y)) by lra. rewrite <- exp_pow. apply pow_incr. split; [lra|]. pose proof (exp_ineq1_le (- y)). lra.
Qed.
Lemma lim_inv_k s : is_lim_seq (fun k => s / INR k) 0.
Proof.
  pose proof (is_lim_seq_inv INR p_infty is_lim_seq_INR ltac:(discriminate)) as K. pose proof (is_lim_seq_scal_l _ s _ K) as K'. cbn in K'. rewrite Rmult_0_r in K'. exact K'.
Qed.
Lemma eventually_gt s : eventually (fun k => s < INR k).
Proof. destruct (nfloor_ex (Rmax 0 s) (Rmax_l 0 s)) as (N & _ & HN). exists (S N). intros k Hk. apply le_INR in Hk. rewrite S_INR in Hk. pose proof (Rmax_r 0 s). lra. Qed.
Lemma lim_power s : 0 <= s -> is_lim_seq (fun k => (1 - s / INR k) ^ k) (exp (- s)).
Proof.
  intros Hs. apply (is_lim_seq_le_le_loc (fun k => exp (- (s * (/ (1 - s / INR k))))) _ (fun _ => exp (- s))).
  - destruct (eventually_gt s) as (N & HN). exists N. intros k Hk. specialize (HN k Hk). pose proof (power_bounds s k ltac:(lra)) as (B1 & B2). split; [|exact B2].
    eapply Rle_trans; [|exact B1]. right. do 3 f_equal. field. lra.
  - pose proof (is_lim_seq_continuous exp (fun k => - (s * (/ (1 - s / INR k)))) (- s)) as K. apply K; [apply derivable_continuous_pt, derivable_pt_exp|].
    pose proof (is_lim_seq_minus' _ _ _ _ (is_lim_seq_const 1) (lim_inv_k s)) as K1. rewrite Rminus_0_r in K1. pose proof (is_lim_seq_inv _ _ K1 ltac:(cbn; intro E; inversion E; lra)) as K2.
    pose proof (is_lim_seq_scal_l _ (- s) _ K2) as K3. cbn in K3. replace (- s * / 1) with (- s) in K3 by field. eapply is_lim_seq_ext; [|exact K3]. intro k. cbv beta. ring.
  - apply is_lim_seq_const.
Qed.

(** C132. With k other levels at unit density the probability that the nearest spacing exceeds s tends to the package's Poisson law. *)
Theorem C132_nearest : forall s, 0 <= s -> exists p : nat -> R,
  (forall k a x, s <= INR k -> (1 <= k)%nat -> a <= x -> x + s <= a + INR k ->
    IsAverage k (fun l => Indicator (CountIn (map (fun t => a + (a + INR k - a) * t) l) x (x + s) =? 0)) (p k)) /\
  (forall k, s < INR k -> exp (- (s * (INR k / (INR k - s)))) <= p k <= 1 - nnsd_cdf_at Poisson s) /\
  is_lim_seq p (1 - nnsd_cdf_at Poisson s).
Proof.
  intros s Hs. assert (E : 1 - nnsd_cdf_at Poisson s = exp (- s)) by (unfold nnsd_cdf_at; rewrite Rmax_left by lra; ring). rewrite E. exists (fun k => (1 - s / INR k) ^ k). split; [|split; [intros; now apply power_bounds|now apply lim_power]].
  intros k a x Hk H1 Ha Hb. assert (0 < INR k) by (apply lt_0_INR; lia). pose proof (C132_binomial a (a + INR k) x s k 0 Hs ltac:(lra) Ha Hb) as B.
  unfold Binomial in B. rewrite choose_0, Nat.sub_0_r in B. replace (a + INR k - a) with (INR k) in * by ring. replace (INR 1 * (s / INR k) ^ 0 * (1 - s / INR k) ^ k) with ((1 - s / INR k) ^ k) in B by (cbn; ring). exact B.
Qed.
Print Assumptions C132_nearest.

(** C132. The probability that half the next-nearest spacing exceeds s tends to (1 + 2s) exp(-2s), whose density is 4s exp(-2s). *)
Theorem C132_next_nearest : forall s, 0 <= s -> exists p : nat -> R,
  (forall k a x, 2 * s < INR k -> a <= x -> x + 2 * s <= a + INR k ->
    IsAverage k (fun l => Indicator (CountIn (map (fun t => a + (a + INR k - a) * t) l) x (x + 2 * s) <=? 1)) (p k)) /\
  is_lim_seq p ((1 + 2 * s) * exp (- (2 * s))) /\ is_derive (fun v => 1 - (1 + 2 * v) * exp (- (2 * v))) s (4 * s * exp (- (2 * s))).
Proof.
  intros s Hs. set (h := 2 * s). assert (Hh : 0 <= h) by (unfold h; lra). exists (fun k => (1 - h / INR k) ^ k + h * (1 - h / INR k) ^ (k - 1)). split; [|split].
  - intros k a x Hk Ha Hb. assert (Pk : 0 < INR k) by lra. assert (K1 : (1 <= k)%nat) by (destruct k; [cbn in Pk; lra|lia]).
    pose proof (C132_binomial a (a + INR k) x h k 0 Hh ltac:(lra) Ha Hb) as B0. pose proof (C132_binomial a (a + INR k) x h k 1 Hh ltac:(lra) Ha Hb) as B1.
    pose proof (average_plus k _ _ _ _ B0 B1) as B. unfold Binomial in B. rewrite choose_0, choose_1, Nat.sub_0_r in B. replace (a + INR k - a) with (INR k) in * by ring.
    match type of B with IsAverage _ _ ?v => replace v with ((1 - h / INR k) ^ k + h * (1 - h / INR k) ^ (k - 1)) in B end.
    2:{ set (q := (1 - h / INR k) ^ k). set (q' := (1 - h / INR k) ^ (k - 1)). cbn [pow INR]. field. lra. }
    eapply average_ext; [|exact B]. intros l _. cbv beta. destruct (CountIn _ x (x + h)) as [|[|n]]; unfold Indicator; cbn; ring.
  - pose proof (lim_power h Hh) as L1. pose proof (is_lim_seq_minus' _ _ _ _ (is_lim_seq_const 1) (lim_inv_k h)) as K1. rewrite Rminus_0_r in K1. pose proof (is_lim_seq_inv _ _ K1 ltac:(cbn; intro E; inversion E; lra)) as K2.
    pose proof (is_lim_seq_scal_l _ h _ K2) as K3. pose proof (is_lim_seq_plus' _ _ _ _ (is_lim_seq_const 1) K3) as K4. pose proof (is_lim_seq_mult' _ _ _ _ K4 L1) as K5. cbn in K5. replace (1 + h * / 1) with (1 + h) in K5 by field.
    eapply is_lim_seq_ext_loc; [|exact K5]. destruct (eventually_gt h) as (N & HN). exists N. intros k Hk. specialize (HN k Hk). cbv beta.
    assert (Pk : 0 < INR k) by lra. assert (K : (1 <= k)%nat) by (destruct k; [cbn in Pk; lra|lia]). assert (Ek : forall z : R, z ^ k = z * z ^ (k - 1)) by (intro z; destruct k as [|k]; [lia|]; cbn [pow Nat.sub]; now rewrite Nat.sub_0_r). rewrite Ek.
    set (q := (1 - h / INR k) ^ (k - 1)). field. split; lra.
  - auto_derive; [trivial|]. unfold h. ring.
Qed.
Print Assumptions C132_next_nearest.

(** C132, FALSE of the code: Poisson.nnnsd is not that density, whatever value the Gamma function has. *)
Theorem C132_next_nearest_refuted : forall (gamma : R -> R) lo hi n, exists s, 0 < s /\ nnnsd gamma Poisson lo hi n (Some [s]) <> Ok [4 * s * exp (- (2 * s))].
Proof.
  intros gamma lo hi n. set (al := brody_alpha gamma (6 / 10)).
  assert (E : forall s, nnnsd gamma Poisson lo hi n (Some [s]) = Ok [(6 / 10 + 1) * al * npow s (6 / 10) * exp (- al * npow s (6 / 10 + 1))]) by reflexivity.
  destruct (Req_dec ((6 / 10 + 1) * al * npow 1 (6 / 10) * exp (- al * npow 1 (6 / 10 + 1))) (4 * 1 * exp (- (2 * 1)))) as [E1|E1].
  2:{ exists 1. split; [lra|]. rewrite E. intro H. injection H. exact E1. }
  destruct (Req_dec ((6 / 10 + 1) * al * npow 32 (6 / 10) * exp (- al * npow 32 (6 / 10 + 1))) (4 * 32 * exp (- (2 * 32)))) as [E2|E2].
  2:{ exists 32. split; [lra|]. rewrite E. intro H. injection H. exact E2. }
  exfalso. assert (N1 : forall y, npow 1 y = 1) by (intro y; unfold npow; destruct (Rlt_dec 0 1); [|lra]; unfold Rpower; now rewrite ln_1, Rmult_0_r, exp_0).
  assert (L32 : ln 32 = 5 * ln 2) by (replace 32 with (2 ^ 5) by ring; rewrite ln_pow by lra; cbn; ring).
  assert (P3 : npow 32 (6 / 10) = 8).
  { unfold npow. destruct (Rlt_dec 0 32); [|lra]. unfold Rpower. rewrite L32. replace (6 / 10 * (5 * ln 2)) with (INR 3 * ln 2) by (cbn; field). rewrite <- exp_pow, exp_ln by lra. cbn; ring. }
  assert (P8 : npow 32 (6 / 10 + 1) = 256).
  { unfold npow. destruct (Rlt_dec 0 32); [|lra]. unfold Rpower. rewrite L32. replace ((6 / 10 + 1) * (5 * ln 2)) with (INR 8 * ln 2) by (cbn; field). rewrite <- exp_pow, exp_ln by lra. cbn; ring. }
  rewrite !N1 in E1. rewrite P3, P8 in E2. replace (- al * 1) with (- al) in E1 by ring.
  assert (X2 : exp (- (2 * 1)) = exp (- (1)) * exp (- (1))) by (rewrite <- exp_plus; f_equal; ring).
  assert (Q : / 3 <= exp (- (1))) by (rewrite exp_Ropp; apply Rinv_le_contravar; [apply exp_pos|exact exp_le_3]).
  pose proof (exp_pos (- al)) as Pa. assert (Al : 0 < al) by nra. assert (Ea : exp (- al) <= 1) by (rewrite <- exp_0; destruct (Rle_lt_or_eq_dec (- al) 0 ltac:(lra)) as [H|H]; [left; now apply exp_increasing|rewrite H; lra]).
  assert (B1 : 4 / 9 <= 16 / 10 * al) by nra.
  (* Dividing the two equations: exp(-255 al) = 4 exp(-62), so al < 62/255. *)
  assert (E3 : exp (- al * 256) = exp (- al) * exp (- 255 * al)) by (rewrite <- exp_plus; f_equal; ring).
  assert (E4 : exp (- (2 * 32)) = exp (- (2 * 1)) * exp (- 62)) by (rewrite <- exp_plus; f_equal; ring).
  rewrite E3, E4 in E2. assert (E5 : exp (- 255 * al) = 4 * exp (- 62)).
  { apply (Rmult_eq_reg_l ((6 / 10 + 1) * al * 1 * exp (- al) * 8)); [|apply Rgt_not_eq; repeat apply Rmult_gt_0_compat; lra].
    replace ((6 / 10 + 1) * al * 1 * exp (- al) * 8 * exp (- 255 * al)) with ((6 / 10 + 1) * al * 8 * (exp (- al) * exp (- 255 * al))) by ring. rewrite E2, E1. ring. }
  assert (B2 : exp (- 62) < exp (- 255 * al)) by (rewrite E5; pose proof (exp_pos (- 62)); lra). apply exp_lt_inv in B2. lra.
Qed.
Print Assumptions C132_next_nearest_refuted.

(** Three other levels on [0, 3] and a level at 1: no other within distance 1 above it with probability 8/27, exactly one with 4/9; and of the levels 0, 1, 3 the first spacing exceeds 1/2. *)
Example C132_case : IsAverage 3 (fun l => Indicator (CountIn (map (fun t => 0 + (3 - 0) * t) l) 1 (1 + 1) =? 0)) (8 / 27) /\
  IsAverage 3 (fun l => Indicator (CountIn (map (fun t => 0 + (3 - 0) * t) l) 1 (1 + 1) =? 1)) (4 / 9) /\
  1 / 2 < nth 0 (spacings [3; 0; 1]) 0.
Proof.
  split; [|split].
  - pose proof (C132_binomial 0 3 1 1 3 0 ltac:(lra) ltac:(lra) ltac:(lra) ltac:(lra)) as B. replace (Binomial 3 (1 / (3 - 0)) 0) with (8 / 27) in B by (unfold Binomial; cbn; field). exact B.
  - pose proof (C132_binomial 0 3 1 1 3 1 ltac:(lra) ltac:(lra) ltac:(lra) ltac:(lra)) as B. replace (Binomial 3 (1 / (3 - 0)) 1) with (4 / 9) in B by (unfold Binomial; cbn; field). exact B.
  - assert (D : NoDup [3; 0; 1]) by (repeat constructor; cbn; lra).
    assert (S : np_sort [3; 0; 1] = [0; 1; 3]).
    { apply sort_eq; [apply Permutation_sym; change [3; 0; 1] with ([3] ++ [0; 1]); change [0; 1; 3] with ([0; 1] ++ [3]); apply Permutation_app_comm|]. repeat constructor; apply Le_R; lra. }
    destruct (C132_gaps [3; 0; 1] 0 (1 / 2) D) as (G & _). apply G; [cbn; lia|]. rewrite S. cbn [nth CountIn]. repeat (destruct (Rle_dec _ _); try lra); cbn; lia.
Qed.
