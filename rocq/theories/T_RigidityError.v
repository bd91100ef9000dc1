(** Property C128: the mean squared error of the Monte-Carlo rigidity. *)
From Coq Require Import List ZArith Bool Arith Lia Reals Lra Sorting.Permutation.
From Coquelicot Require Import Coquelicot.
From Verif Require Import Base S_Order S_EigVals S_Trim M_Step M_Quad M_Loops M_DeltaGrid S_Quad S_Loops S_Average S_Rigidity P_Order P_Step P_EigVals P_TrimStat P_TrimFull P_Quad P_Ols P_Loops P_Delta T_Loops T_WindowMean T_NumberVariance T_RigidityMean T_Rigidity P_RigidityLimit P_RigidityFit T_RigidityLimit.
Import ListNotations.
Local Open Scope R_scope.
Local Notation length := List.length.

(** ** Averages of products of independent samples *)
Lemma RInt_scal_r (g : R -> R) (m c : R) : is_RInt g 0 1 m -> is_RInt (fun t => g t * c) 0 1 (m * c).
Proof.
  intros I. pose proof (is_RInt_scal (V := R_NormedModule) g 0 1 c m I) as J. unfold scal in J. cbn in J. unfold mult in J. cbn in J. rewrite Rmult_comm.
  eapply is_RInt_ext; [|exact J]. intros t _. apply Rmult_comm.
Qed.
Lemma average_pair (g : R -> R) (m : R) : is_RInt g 0 1 m -> forall k i j, (i < j)%nat -> (j < k)%nat -> IsAverage k (fun l => g (nth i l 0) * g (nth j l 0)) (m * m).
Proof.
  intro I. induction k as [|k IH]; intros i j Hi Hj; [lia|]. destruct j as [|j]; [lia|]. destruct i as [|i]; cbn [IsAverage nth].
  - exists (fun t => g t * m). split; [|now apply RInt_scal_r]. intro t. apply (average_scal k (fun l => g (nth j l 0)) m (g t)). apply average_coord; [exact I|lia].
  - exists (fun _ => m * m). split; [|apply RInt_const01]. intros _. apply IH; lia.
Qed.
Section Centred.
Variables (h : R -> R) (V : R).
Hypothesis H1 : is_RInt h 0 1 0.
Hypothesis H2 : is_RInt (fun t => h t * h t) 0 1 V.
Lemma average_prod k i j : (i < k)%nat -> (j < k)%nat -> IsAverage k (fun l => h (nth i l 0) * h (nth j l 0)) (if (i =? j)%nat then V else 0).
Proof.
  intros Hi Hj. destruct (Nat.eqb_spec i j) as [->|Hne]; [exact (average_coord (fun t => h t * h t) V H2 k j Hj)|].
  assert (P : forall i j, (i < j)%nat -> (j < k)%nat -> IsAverage k (fun l => h (nth i l 0) * h (nth j l 0)) 0).
  { intros a b Ha Hb. pose proof (average_pair h 0 H1 k a b Ha Hb) as A. rewrite Rmult_0_l in A. exact A. }
  destruct (Nat.lt_ge_cases i j); [now apply P|].
  apply (average_ext k (fun l => h (nth j l 0) * h (nth i l 0))); [intros; apply Rmult_comm|]. apply P; [lia|exact Hi].
Qed.
Lemma Rsum_scal_l {A} (f : A -> R) c s : Rsum (map (fun x => c * f x) s) = c * Rsum (map f s).
Proof. induction s as [|x s IH]; [cbn; ring|]. cbn [map]. rewrite !Rsum_cons, IH. ring. Qed.
Lemma Rsum_prod {A B} (f : A -> R) (f' : B -> R) s s' : Rsum (map f s) * Rsum (map f' s') = Rsum (map (fun x => Rsum (map (fun y => f x * f' y) s')) s).
Proof. induction s as [|x s IH]; [cbn; ring|]. cbn [map]. rewrite !Rsum_cons, Rsum_scal_l, <- IH. ring. Qed.
Lemma diag_row i n : Rsum (map (fun j => if (i =? j)%nat then V else 0) (seq 0 n)) = if (i <? n)%nat then V else 0.
Proof.
  induction n as [|n IH]; [reflexivity|]. rewrite seq_S, map_app, Rsum_app, IH. cbn [map]. rewrite Nat.add_0_l, Rsum_cons. change (Rsum []) with 0.
  destruct (Nat.ltb_spec i n), (Nat.eqb_spec i n), (Nat.ltb_spec i (S n)); try lia; ring.
Qed.
Lemma diag_all k n : Rsum (map (fun i => if (i <? n)%nat then V else 0) (seq 0 k)) = INR (Nat.min k n) * V.
Proof.
  induction k as [|k IH]; [cbn; ring|]. rewrite seq_S, map_app, Rsum_app, IH. cbn [map]. rewrite Nat.add_0_l, Rsum_cons. change (Rsum []) with 0.
  destruct (Nat.ltb_spec k n); [replace (Nat.min (S k) n) with (S (Nat.min k n)) by lia; rewrite S_INR; ring|]. replace (Nat.min (S k) n) with (Nat.min k n) by lia. ring.
Qed.
(** Two running means of the same samples. *)
Lemma average_means k i j : (1 <= i <= k)%nat -> (1 <= j <= k)%nat ->
  IsAverage k (fun l => runmean (fun a => h (nth a l 0)) i * runmean (fun a => h (nth a l 0)) j) (V / INR (Nat.max i j)).
Proof.
  intros Hi Hj. assert (Pi : 0 < INR i) by (apply lt_0_INR; lia). assert (Pj : 0 < INR j) by (apply lt_0_INR; lia).
  apply (average_ext k (fun l => / (INR i * INR j) * Rsum (map (fun a => Rsum (map (fun b => h (nth a l 0) * h (nth b l 0)) (seq 0 j))) (seq 0 i)))).
  - intros l _. unfold runmean. rewrite !Rmean_INR, !map_length, !seq_length, <- Rsum_prod. field. lra.
  - replace (V / INR (Nat.max i j)) with (/ (INR i * INR j) * Rsum (map (fun a => Rsum (map (fun b => if (a =? b)%nat then V else 0) (seq 0 j))) (seq 0 i))).
    + apply average_scal. apply (average_sum k (fun a l => Rsum (map (fun b => h (nth a l 0) * h (nth b l 0)) (seq 0 j)))). intros a Ha. apply in_seq in Ha.
      apply (average_sum k (fun b l => h (nth a l 0) * h (nth b l 0))). intros b Hb. apply in_seq in Hb. apply average_prod; lia.
    + rewrite (map_ext _ (fun a => if (a <? j)%nat then V else 0)) by (intro; apply diag_row). rewrite diag_all.
      assert (E : INR i * INR j = INR (Nat.max i j) * INR (Nat.min i j)).
      { rewrite <- !mult_INR. f_equal. destruct (Nat.le_ge_cases i j); [rewrite Nat.max_r, Nat.min_l by lia|rewrite Nat.max_l, Nat.min_r by lia]; lia. }
      rewrite E. assert (0 < INR (Nat.max i j)) by (apply lt_0_INR; lia). assert (0 < INR (Nat.min i j)) by (apply lt_0_INR; lia). field. lra.
Qed.
(** The mean of the last w of k running means. *)
Lemma average_tail k w : (1 <= w)%nat -> (w <= k)%nat -> 0 <= V -> exists v, 0 <= v <= V / INR (k + 1 - w) /\
  IsAverage k (fun l => (Rsum (map (fun t => runmean (fun a => h (nth a l 0)) (k - t)) (seq 0 w)) / INR w) ^ 2) v.
Proof.
  intros Hw Hk HV. assert (Pw : 0 < INR w) by (apply lt_0_INR; lia). assert (Pd : 0 < INR (k + 1 - w)) by (apply lt_0_INR; lia).
  assert (B : forall t t', (t < w)%nat -> (t' < w)%nat -> 0 <= V / INR (Nat.max (k - t) (k - t')) <= V / INR (k + 1 - w)).
  { intros t t' Ht Ht'. assert (INR (k + 1 - w) <= INR (Nat.max (k - t) (k - t'))) by (apply le_INR; lia). split; [apply Rmult_le_pos; [exact HV|left; apply Rinv_0_lt_compat; lra]|].
    apply Rmult_le_compat_l; [exact HV|]. apply Rinv_le_contravar; lra. }
  exists (/ (INR w * INR w) * Rsum (map (fun t => Rsum (map (fun t' => V / INR (Nat.max (k - t) (k - t'))) (seq 0 w))) (seq 0 w))). split.
  - assert (G : forall (f : nat -> R) K s, (forall t, In t s -> 0 <= f t <= K) -> 0 <= Rsum (map f s) <= INR (length s) * K).
    { intros f K s. induction s as [|x s IH]; intros Hf; [cbn; lra|]. cbn [map length]. rewrite Rsum_cons, S_INR. pose proof (Hf x (or_introl eq_refl)). specialize (IH (fun t h => Hf t (or_intror h))). lra. }
    set (K := V / INR (k + 1 - w)) in *.
    assert (T : 0 <= Rsum (map (fun t => Rsum (map (fun t' => V / INR (Nat.max (k - t) (k - t'))) (seq 0 w))) (seq 0 w)) <= INR w * (INR w * K)).
    { assert (G' : forall t, (t < w)%nat -> 0 <= Rsum (map (fun t' => V / INR (Nat.max (k - t) (k - t'))) (seq 0 w)) <= INR w * K).
      { intros t Ht. pose proof (G (fun t' => V / INR (Nat.max (k - t) (k - t'))) K (seq 0 w)) as X. rewrite seq_length in X. apply X. intros t' Ht'. apply in_seq in Ht'. apply B; lia. }
      pose proof (G (fun t => Rsum (map (fun t' => V / INR (Nat.max (k - t) (k - t'))) (seq 0 w))) (INR w * K) (seq 0 w)) as X. rewrite seq_length in X. apply X.
      intros t Ht. apply in_seq in Ht. apply G'. lia. }
    assert (Pi : 0 < / (INR w * INR w)) by (apply Rinv_0_lt_compat; nra). split; [apply Rmult_le_pos; lra|].
    apply Rle_trans with (/ (INR w * INR w) * (INR w * (INR w * K))); [apply Rmult_le_compat_l; lra|]. right. field. lra.
  - apply (average_ext k (fun l => / (INR w * INR w) * Rsum (map (fun t => Rsum (map (fun t' => runmean (fun a => h (nth a l 0)) (k - t) * runmean (fun a => h (nth a l 0)) (k - t')) (seq 0 w))) (seq 0 w)))).
    + intros l _. rewrite <- Rsum_prod. field. lra.
    + apply average_scal. apply (average_sum k (fun t l => Rsum (map (fun t' => runmean (fun a => h (nth a l 0)) (k - t) * runmean (fun a => h (nth a l 0)) (k - t')) (seq 0 w)))). intros t Ht. apply in_seq in Ht.
      apply (average_sum k (fun t' l => runmean (fun a => h (nth a l 0)) (k - t) * runmean (fun a => h (nth a l 0)) (k - t'))). intros t' Ht'. apply in_seq in Ht'. apply average_means; lia.
Qed.
End Centred.

(** ** The sampled value and its variance over the centres *)
Definition CentreMean (S : R -> R) (lo hi : R) : R := RInt S lo hi / (hi - lo).
Definition CentreVar (S : R -> R) (lo hi : R) : R := RInt (fun c => (S c - CentreMean S lo hi) ^ 2) lo hi / (hi - lo).
(** Any function of the sampled value is integrable. *)
Lemma ex_of_sample simpson n L (u : list R) S (f : R -> R) : u <> [] -> Ascending u -> (2 <= n)%nat -> 0 < L -> (forall c, d3_sample simpson n L u c = Done (S c)) ->
  forall a b, ex_RInt (fun c => f (S c)) a b.
Proof.
  intros Hne Hu Hn HL HD. destruct u as [|e0 u']; [congruence|]. set (u := e0 :: u') in *.
  set (T := (e0 - L / 2) :: flat_map (fun e => map (fun x => e - x) (EvenGrid (0 - L / 2) (0 + L / 2) n)) u).
  assert (forall c c', (forall x, In x T -> (x <= c <-> x <= c') /\ (x = c <-> x = c')) -> S c = S c') as K.
  { intros c c' HT. destruct (Req_EM_T (c + L / 2) e0) as [E|E].
    - assert (c = c') as ->; [|reflexivity]. destruct (HT (e0 - L / 2) ltac:(now left)) as [_ [H _]]. assert (e0 - L / 2 = c) as Q by lra. specialize (H Q). lra.
    - assert (c' + L / 2 <> e0) as E'. { intro Q. destruct (HT (e0 - L / 2) ltac:(now left)) as [_ [_ H]]. apply E. assert (e0 - L / 2 = c') as Q' by lra. specialize (H Q'). lra. }
      assert (forall y, y + L / 2 <> e0 -> S y = FromCounts simpson n L (map (CountLe u) (EvenGrid (y - L / 2) (y + L / 2) n))) as Q.
      { intros y Hy. pose proof (HD y) as H1. rewrite (d3_by_counts _ _ _ u e0) in H1 by (auto || exact eq_refl). congruence. }
      rewrite !Q by assumption. f_equal.
      replace (EvenGrid (c - L / 2) (c + L / 2) n) with (map (fun x => x + c) (EvenGrid (0 - L / 2) (0 + L / 2) n)) by (rewrite <- even_shift; f_equal; ring).
      replace (EvenGrid (c' - L / 2) (c' + L / 2) n) with (map (fun x => x + c') (EvenGrid (0 - L / 2) (0 + L / 2) n)) by (rewrite <- even_shift; f_equal; ring).
      rewrite !map_map. apply map_ext_in. intros x Hx. apply countle_agree. intros e He. destruct (HT (e - x)) as [H _]; [|split; intro; apply Rplus_le_reg_l with (- x); ring_simplify; [assert (e - x <= c') by (apply H; lra)|assert (e - x <= c) by (apply H; lra)]; lra].
      right. apply in_flat_map. exists e. split; [exact He|]. apply in_map_iff. exists x. auto. }
  assert (forall a b, a <= b -> ex_RInt (fun c => f (S c)) a b) as G. { intros a b Hab. apply (ex_RInt_thresholds T); [exact Hab|]. intros. f_equal. now apply K. }
  intros a b. destruct (Rle_dec a b) as [H|H]; [now apply G|]. apply ex_RInt_swap. apply G. lra.
Qed.
Lemma unit_interval (f : R -> R) lo hi : lo < hi -> ex_RInt f lo hi -> is_RInt (fun t => f (uniform lo hi t)) 0 1 (RInt f lo hi / (hi - lo)).
Proof.
  intros Hlh X. pose proof (RInt_correct (V := R_CompleteNormedModule) f lo hi X) as I0.
  replace lo with ((hi - lo) * 0 + lo) in I0 at 1 by ring. replace hi with ((hi - lo) * 1 + lo) in I0 at 2 by ring.
  apply (is_RInt_comp_lin (V := R_NormedModule)) in I0. apply (is_RInt_scal (V := R_NormedModule) _ _ _ (/ (hi - lo))) in I0.
  replace (RInt f lo hi / (hi - lo)) with (scal (/ (hi - lo)) (RInt f lo hi)) by (unfold scal; cbn; unfold mult; cbn; unfold Rdiv; ring).
  eapply is_RInt_ext; [|exact I0]. intros t _. cbv beta. unfold uniform. cbn [nadd nmul nsub Num_R].
  replace ((hi - lo) * t + lo) with (lo + (hi - lo) * t) by ring. unfold scal; cbn; unfold mult; cbn. field. lra.
Qed.
Lemma centred simpson n L (u : list R) lo hi S : Ascending u -> u <> [] -> lo < hi -> (2 <= n)%nat -> 0 < L -> (forall c, d3_sample simpson n L u c = Done (S c)) ->
  let m := CentreMean S lo hi in let h := fun t => S (uniform lo hi t) - m in is_RInt h 0 1 0 /\ is_RInt (fun t => h t * h t) 0 1 (CentreVar S lo hi) /\ 0 <= CentreVar S lo hi.
Proof.
  intros Hu Hne Hlh Hn HL HS m h. assert (X : forall f a b, ex_RInt (fun c => f (S c)) a b) by (intro f; now apply (ex_of_sample simpson n L u)).
  split; [|split].
  - pose proof (unit_interval (fun c => S c) lo hi Hlh (X (fun x => x) lo hi)) as I. pose proof (is_RInt_minus (V := R_NormedModule) _ _ _ _ _ _ I (RInt_const01 m)) as J.
    match type of J with is_RInt _ _ _ ?v => assert (E : v = 0) by exact (Rplus_opp_r m); rewrite E in J end. exact J.
  - pose proof (unit_interval (fun c => (S c - m) ^ 2) lo hi Hlh (X (fun x => (x - m) ^ 2) lo hi)) as I. eapply is_RInt_ext; [|exact I]. intros t _. assert (Z : forall x : R, x ^ 2 = x * x) by (intro; ring). exact (Z (S (uniform lo hi t) - m)).
  - unfold CentreVar. apply Rmult_le_pos; [|left; apply Rinv_0_lt_compat; lra]. apply RInt_ge_0; [lra|exact (X (fun x => (x - m) ^ 2) lo hi)|]. intros; apply pow2_ge_0.
Qed.
Lemma runmean_centre (v : nat -> R) m j : (1 <= j)%nat -> runmean (fun i => v i - m) j = runmean v j - m.
Proof.
  intros Hj. assert (INR j <> 0) by (apply not_0_INR; lia). unfold runmean. rewrite !Rmean_INR, !map_length, !seq_length, Rsum_lin, seq_length. field. assumption.
Qed.

(** C128. With exactly k > 1000 windows at independent uniform centres, the rigidity returned has a mean squared error, against the sampled rigidity averaged over all
    centres, of at most its variance over the centres divided by k - 999. *)
Theorem C128_error : forall simpson n L (u : list R) lo hi k tol mn S, Ascending u -> head_opt u = Some lo -> last_opt u = Some hi -> lo < hi ->
  (2 <= n)%nat -> 0 < L -> (1000 < Z.of_nat k)%Z -> tol <= 0 -> (forall c, d3_sample simpson n L u c = Done (S c)) ->
  exists s v, (forall l, length l = k -> delta_L u L n (Z.of_nat k) mn tol simpson (fun j => nth j l 0) = Done (s l, false, Z.of_nat k)) /\
    IsAverage k s (CentreMean S lo hi) /\ IsAverage k (fun l => (s l - CentreMean S lo hi) ^ 2) v /\ 0 <= v <= CentreVar S lo hi / (INR k - 999).
Proof.
  intros simpson n L u lo hi k tol mn S Hu Hlo Hhi Hlh Hn HL Hk Ht HS. assert (Hne : u <> []) by (intros ->; discriminate).
  destruct (C122_expected_refuted simpson n L u lo hi k tol mn S Hu Hlo Hhi Hlh Hn HL ltac:(lia) Ht HS) as (s & Es & A1 & _).
  assert (Hkn : (1000 < k)%nat). { change 1000%nat with (Z.to_nat 1000). lia. }
  specialize (A1 Hkn). destruct (centred simpson n L u lo hi S Hu Hne Hlh Hn HL HS) as (H1 & H2 & HV). set (m := CentreMean S lo hi) in *. set (V := CentreVar S lo hi) in *.
  set (h := fun t => S (uniform lo hi t) - m) in *. set (w := Z.to_nat BUFFER). assert (Ew : INR w = 1000) by (unfold w; rewrite INR_IZR_INZ, Z2Nat.id by (unfold BUFFER; lia); reflexivity).
  assert (Hw : (1 <= w)%nat) by (unfold w, BUFFER; lia). assert (Hwk : (w < k)%nat) by (unfold w, BUFFER; lia).
  destruct (average_tail h V H1 H2 k w Hw ltac:(lia) HV) as (v & Hv & Av). exists s, v. split; [exact Es|]. split; [exact A1|]. split.
  - eapply average_ext; [|exact Av]. intros l Hl. cbv beta. f_equal. specialize (Es l Hl). unfold delta_L in Es.
    set (g := fun i => S (uniform lo hi (nth i l 0))).
    assert (HSa : forall i, delta_sample simpson n L u (fun j => nth j l 0) i = Done (g i)). { intro i. unfold delta_sample. rewrite Hlo, Hhi. apply HS. }
    destruct (delta_run_done BUFFER g _ (Z.of_nat k) mn tol HSa) as (q & Eq & M1 & _). rewrite Eq in Es.
    assert (E1 : nmean (d_buf (d_after BUFFER g q)) = s l) by congruence. assert (E2 : d_k (d_after BUFFER g q) = Z.of_nat k) by congruence. rewrite d_after_k in E2.
    rewrite <- E1, nmean_R, Rmean_INR, d_buf_length, window_sum by (assumption || (unfold BUFFER; lia)). fold w.
    replace (Z.of_nat q + 1 <=? BUFFER)%Z with false by (symmetry; apply Z.leb_gt; unfold BUFFER; lia). replace (q + 1)%nat with k by lia.
    assert (E3 : forall b, (b <= k)%nat -> Rsum (map (fun t => runmean (fun a => h (nth a l 0)) (k - t)) (seq 0 b)) = Rsum (map (fun t => runmean g (k - t)) (seq 0 b)) - INR b * m).
    { intros b Hb. transitivity (Rsum (map (fun t => runmean g (k - t) - m) (seq 0 b))); [|rewrite Rsum_lin, seq_length; reflexivity].
      f_equal. apply map_ext_in. intros t Hti. apply in_seq in Hti. exact (runmean_centre g m (k - t) ltac:(lia)). }
    rewrite E3 by lia. field. lra.
  - replace (INR k - 999) with (INR (k + 1 - w)) by (rewrite minus_INR, plus_INR, Ew by lia; cbn; ring). exact Hv.
Qed.
Print Assumptions C128_error.

(** C128. [_delta_grid] with k >= 1 independent uniform centres has mean squared error exactly variance / k. *)
Theorem C128_delta_grid : forall simpson n L (u : list R) lo hi k S, Ascending u -> u <> [] -> lo < hi -> (2 <= n)%nat -> 0 < L -> (1 <= k)%nat ->
  (forall c, d3_sample simpson n L u c = Done (S c)) ->
  exists s, (forall l, length l = k -> delta_grid u (map (fun t => lo + (hi - lo) * t) l) L n simpson = Done (s l)) /\
    IsAverage k (fun l => (s l - CentreMean S lo hi) ^ 2) (CentreVar S lo hi / INR k).
Proof.
  intros simpson n L u lo hi k S Hu Hne Hlh Hn HL Hk HS. destruct (C122_delta_grid simpson n L u lo hi k S Hu Hne Hlh Hn HL Hk HS) as ((s & Es & _) & _). exists s. split; [exact Es|].
  destruct (centred simpson n L u lo hi S Hu Hne Hlh Hn HL HS) as (H1 & H2 & HV). set (m := CentreMean S lo hi) in *. set (h := fun t => S (uniform lo hi t) - m) in *.
  pose proof (average_means h _ H1 H2 k k k ltac:(lia) ltac:(lia)) as A. rewrite Nat.max_id in A. eapply average_ext; [|exact A]. intros l Hl. cbv beta.
  pose proof (runmean_centre (fun a => S (uniform lo hi (nth a l 0))) m k Hk) as C. change (runmean (fun a => h (nth a l 0)) k = runmean (fun a => S (uniform lo hi (nth a l 0))) k - m) in C. rewrite C. specialize (Es l Hl).
  assert (E : delta_grid u (map (fun t => lo + (hi - lo) * t) l) L n simpson = Done (Rmean (map S (map (fun t => lo + (hi - lo) * t) l)))).
  { unfold delta_grid. set (st := map _ l). assert (delta3s simpson n L u st = Done (map S st)) as ->.
    { generalize st. induction st0 as [|c t IH]; [reflexivity|]. cbn [delta3s map]. now rewrite HS, IH. }
    now rewrite nmean_R. }
  rewrite E in Es. injection Es as <-. unfold runmean. rewrite map_map.
  replace (map (fun a => S (uniform lo hi (nth a l 0))) (seq 0 k)) with (map (fun x => S (lo + (hi - lo) * x)) l); [ring|].
  rewrite <- Hl. clear. induction l as [|x l IH]; [reflexivity|]. cbn [length seq map nth]. f_equal. rewrite <- seq_shift, map_map. exact IH.
Qed.
Print Assumptions C128_delta_grid.

(** C128. Against the documented rigidity (least mean squared distance from a line, averaged over all centres in the range of the levels) the mean squared error with
    n >= 3 grid points and exactly k > 1000 windows is at most N^4 / (4 (k - 999)) + (160 N^2 / (n - 1))^2, N the number of levels. *)
Theorem C128_documented : forall simpson n L (u : list R) lo hi k tol mn, Ascending u -> head_opt u = Some lo -> last_opt u = Some hi -> lo < hi ->
  (3 <= n)%nat -> 0 < L -> (1000 < Z.of_nat k)%Z -> tol <= 0 ->
  exists E s v, (forall c, ExactRigidity u c L (E c)) /\ ex_RInt E lo hi /\
    (forall l, length l = k -> delta_L u L n (Z.of_nat k) mn tol simpson (fun j => nth j l 0) = Done (s l, false, Z.of_nat k)) /\
    IsAverage k (fun l => (s l - RInt E lo hi / (hi - lo)) ^ 2) v /\
    0 <= v <= INR (length u) ^ 4 / (4 * (INR k - 999)) + (160 * INR (length u) ^ 2 / (INR n - 1)) ^ 2.
Proof.
  intros simpson n L u lo hi k tol mn Hu Hlo Hhi Hlh Hn HL Hk Ht. assert (Hne : u <> []) by (intros ->; discriminate).
  set (S := fun c => match d3_sample simpson n L u c with Done d => d | _ => 0 end).
  assert (HS : forall c, d3_sample simpson n L u c = Done (S c)) by (intro c; unfold S; destruct (d3_defined simpson n L u c Hne ltac:(lia)) as (d & ->); reflexivity).
  destruct (C127_average simpson L u lo hi HL Hu Hlo Hhi Hlh) as (E & HE & XE & B). specialize (B n S Hn HS).
  destruct (C128_error simpson n L u lo hi k tol mn S Hu Hlo Hhi Hlh ltac:(lia) HL Hk Ht HS) as (s & v & Es & A1 & A2 & Hv).
  fold (CentreMean S lo hi) in B. set (m := CentreMean S lo hi) in *. set (e := RInt E lo hi / (hi - lo)) in *.
  exists E, s, (v + (m - e) ^ 2). split; [exact HE|]. split; [exact XE|]. split; [exact Es|]. split.
  - replace (v + (m - e) ^ 2) with (v + (2 * (m - e) * m + (m - e) * (- e - m))) by ring.
    apply (average_ext k (fun l => (s l - m) ^ 2 + (2 * (m - e) * s l + (m - e) * (- e - m)))); [intros l _; fold e; ring|].
    apply (average_plus k (fun l => (s l - m) ^ 2)); [exact A2|]. apply (average_plus k (fun l => 2 * (m - e) * s l)); [now apply average_scal|apply average_const].
  - assert (Pk : 0 < INR k - 999). { rewrite INR_IZR_INZ. assert (1000 < IZR (Z.of_nat k)) by (apply (IZR_lt 1000); exact Hk). lra. }
    set (N := INR (length u)) in *. assert (HN : 0 <= N) by (unfold N; apply pos_INR). pose proof (pow2_ge_0 (m - e)) as Q.
    assert (B2 : (m - e) ^ 2 <= (160 * N ^ 2 / (INR n - 1)) ^ 2) by (apply pow_maj_Rabs; exact B).
    assert (n1 : 2 <= INR n - 1) by (apply le_INR in Hn; cbn in Hn; lra).
    assert (HSb : forall c, lo <= c <= hi -> 0 <= S c <= N ^ 2 / 2).
    { intros c Hc. destruct (C108_near_line simpson n L u c (S c) 0 (N / 2) (N / 2) HL Hn Hu) as (P0 & P1); [|exact (HS c)|].
      - intros x _. pose proof (countle_bounds u x) as (L1 & L2). apply IZR_le in L1, L2. rewrite <- INR_IZR_INZ in L2. fold N in L2. apply Rabs_le_between. lra.
      - split; [exact P0|]. eapply Rle_trans; [exact P1|]. replace (N ^ 2 / 2) with (4 / 3 * (3 / 2) * (N / 2 * (N / 2))) by field. apply Rmult_le_compat_r; [nra|]. apply Rmult_le_compat_l; [lra|].
        apply (Rmult_le_reg_r (INR n - 1)); [lra|]. replace (INR n / (INR n - 1) * (INR n - 1)) with (INR n) by (field; lra). lra. }
    assert (XS : forall f a b, ex_RInt (fun c => f (S c)) a b) by (intro f; apply (ex_of_sample simpson n L u); auto; lia).
    assert (Hm : 0 <= m <= N ^ 2 / 2).
    { unfold m, CentreMean. pose proof (XS (fun x => x) lo hi) as X. pose proof (RInt_ge_0 S lo hi ltac:(lra) X (fun x Hx => proj1 (HSb x ltac:(lra)))) as G1.
      pose proof (RInt_le S (fun _ => N ^ 2 / 2) lo hi ltac:(lra) X (ex_RInt_const (V := R_NormedModule) lo hi _) (fun x Hx => proj2 (HSb x ltac:(lra)))) as G2. rewrite RInt_const in G2.
      change (RInt S lo hi <= (hi - lo) * (N ^ 2 / 2)) in G2. split; [apply Rmult_le_pos; [exact G1|left; apply Rinv_0_lt_compat; lra]|].
      apply (Rmult_le_reg_r (hi - lo)); [lra|]. unfold Rdiv at 1. rewrite Rmult_assoc, Rinv_l, Rmult_1_r by lra. lra. }
    assert (HV : CentreVar S lo hi <= N ^ 4 / 4).
    { unfold CentreVar. fold m. pose proof (RInt_le (fun c => (S c - m) ^ 2) (fun _ => N ^ 4 / 4) lo hi ltac:(lra) (XS (fun x => (x - m) ^ 2) lo hi) (ex_RInt_const (V := R_NormedModule) lo hi _)) as G. rewrite RInt_const in G.
      apply (Rmult_le_reg_r (hi - lo)); [lra|]. unfold Rdiv at 1. rewrite Rmult_assoc, Rinv_l, Rmult_1_r by lra. rewrite Rmult_comm. apply G. intros x Hx. specialize (HSb x ltac:(lra)).
      replace (N ^ 4 / 4) with ((N ^ 2 / 2) ^ 2) by field. apply pow_maj_Rabs. apply Rabs_le_between. lra. }
    split; [lra|]. apply Rplus_le_compat; [|exact B2]. eapply Rle_trans; [apply Hv|]. replace (N ^ 4 / (4 * (INR k - 999))) with (N ^ 4 / 4 / (INR k - 999)) by (field; lra).
    apply Rmult_le_compat_r; [left; now apply Rinv_0_lt_compat|exact HV].
Qed.
Print Assumptions C128_documented.
(** Levels 0, 1, 3, windows of length 2 with three points: the sampled value is 0 on a third of the centres and 5/72 on the rest, mean 5/108, variance 25/23328;
    two centres of [_delta_grid] have mean squared error 25/46656, and 1001 windows of the loop at most that. *)
Example C128_case : exists S s v, (forall c, d3_sample false 3 2 [0; 1; 3] c = Done (S c)) /\ CentreMean S 0 3 = 5 / 108 /\ CentreVar S 0 3 = 25 / 23328 /\
  (exists s2, (forall l, length l = 2%nat -> delta_grid [0; 1; 3] (map (fun t => 0 + (3 - 0) * t) l) 2 3 false = Done (s2 l)) /\ IsAverage 2 (fun l => (s2 l - 5 / 108) ^ 2) (25 / 46656)) /\
  (forall l, length l = Z.to_nat 1001 -> delta_L [0; 1; 3] 2 3 1001 100 0 false (fun j => nth j l 0) = Done (s l, false, 1001%Z)) /\
  IsAverage (Z.to_nat 1001) (fun l => (s l - 5 / 108) ^ 2) v /\ 0 <= v <= 25 / 46656.
Proof.
  assert (Ascending [0; 1; 3]) as Hu by (apply StronglySorted_R; repeat constructor; lra).
  destruct (C122_integrable false 3 2 [0; 1; 3] ltac:(discriminate) Hu ltac:(lia) ltac:(lra)) as (S & HS & _).
  assert (forall c, 0 <= c -> S c = FromCounts false 3 2 [CountLe [0; 1; 3] (c - 1); CountLe [0; 1; 3] c; CountLe [0; 1; 3] (c + 1)]) as Q.
  { intros c Hc. pose proof (HS c) as H. rewrite (d3_by_counts _ _ _ _ 0), grid3 in H; [|lia|lra|exact Hu|reflexivity|lra]. cbn [map] in H. congruence. }
  assert (P : forall f : R -> R, RInt (fun c => f (S c)) 0 3 = f 0 + 2 * f (5 / 72)).
  { intro f. assert (is_RInt (fun c => f (S c)) 0 1 ((1 - 0) * f 0)) as I1.
    { apply RInt_piece; [lra|]. intros c Hc. rewrite Q by lra. rewrite !countle3, from_three. f_equal. repeat destruct Rle_dec; try lra; cbn; field. }
    assert (is_RInt (fun c => f (S c)) 1 2 ((2 - 1) * f (5 / 72))) as I2.
    { apply RInt_piece; [lra|]. intros c Hc. rewrite Q by lra. rewrite !countle3, from_three. f_equal. repeat destruct Rle_dec; try lra; cbn; field. }
    assert (is_RInt (fun c => f (S c)) 2 3 ((3 - 2) * f (5 / 72))) as I3.
    { apply RInt_piece; [lra|]. intros c Hc. rewrite Q by lra. rewrite !countle3, from_three. f_equal. repeat destruct Rle_dec; try lra; cbn; field. }
    pose proof (is_RInt_Chasles (V := R_NormedModule) _ _ _ _ _ _ (is_RInt_Chasles (V := R_NormedModule) _ _ _ _ _ _ I1 I2) I3) as I.
    rewrite (is_RInt_unique _ 0 3 _ I). unfold plus; cbn. ring. }
  assert (E : CentreMean S 0 3 = 5 / 108) by (unfold CentreMean; pose proof (P (fun x => x)) as P1; cbv beta in P1; change (RInt S 0 3 = 0 + 2 * (5 / 72)) in P1; rewrite P1; field).
  assert (V : CentreVar S 0 3 = 25 / 23328) by (unfold CentreVar; rewrite E, (P (fun x => (x - 5 / 108) ^ 2)); field).
  assert (K : Z.of_nat (Z.to_nat 1001) = 1001%Z) by (apply Z2Nat.id; lia).
  destruct (C128_error false 3 2 [0; 1; 3] 0 3 (Z.to_nat 1001) 0 100 S Hu eq_refl eq_refl ltac:(lra) ltac:(lia) ltac:(lra) ltac:(rewrite K; lia) ltac:(lra) HS) as (s & v & A & _ & B & C).
  destruct (C128_delta_grid false 3 2 [0; 1; 3] 0 3 2 S Hu ltac:(discriminate) ltac:(lra) ltac:(lia) ltac:(lra) ltac:(lia) HS) as (s2 & A2 & B2).
  rewrite E, V in *. rewrite K in A. rewrite INR_IZR_INZ, K in C. exists S, s, v. split; [exact HS|]. split; [exact E|]. split; [exact V|]. split.
  - exists s2. split; [exact A2|]. replace (25 / 46656) with (25 / 23328 / INR 2) by (cbn; field). exact B2.
  - split; [exact A|]. split; [exact B|]. lra.
Qed.
