(** Proofs about fitted counting functions. *)
From Coq Require Import String List ZArith Bool Arith Lia Reals Lra Sorting.Sorted Sorting.Permutation.
From Verif Require Import Base S_Order S_EigVals S_Trim M_Enum M_Trim M_Smooth S_Smooth S_Fit P_Order P_Step P_EigVals P_TrimStat P_Smooth.
Import ListNotations.
Local Open Scope R_scope.
Local Notation length := List.length.

(** ** Polynomials *)
Fixpoint horner (c : list R) (x : R) : R := match c with [] => 0 | a :: t => a + x * horner t x end.
Lemma PolyAt_horner c x : PolyAt c x = horner c x.
Proof.
  unfold PolyAt. induction c as [|a t IH]; auto. cbn [length seq map fold_right horner nth]. rewrite <- IH. clear IH.
  rewrite <- seq_shift, map_map. rewrite pow_O, Rmult_1_r. f_equal.
  induction (seq 0 (length t)) as [|k l IH]; cbn [map fold_right nth]; [ring|]. rewrite IH. cbn [pow]. ring.
Qed.
Lemma polyval_R (x : R) c : polyval x c = PolyAt c x.
Proof.
  rewrite PolyAt_horner. unfold polyval.
  assert (E : forall l, fold_right (fun a acc => nadd a (nmul acc x)) (0 : R) l = horner l x).
  { induction l as [|a t IH]; auto. cbn [fold_right horner]. rewrite IH. cbn. ring. }
  rewrite <- E. replace (fold_right (fun a acc => nadd a (nmul acc x)) 0 c)
    with (fold_right (fun a acc => nadd a (nmul acc x)) 0 (rev (rev c))) by now rewrite rev_involutive.
  rewrite fold_left_rev_right. destruct (rev c) as [|a t]; [reflexivity|].
  cbn [fold_left]. f_equal. cbn. ring.
Qed.
Lemma horner_exists_add c c' : exists p, (length p <= Nat.max (length c) (length c'))%nat /\ forall x, horner p x = horner c x + horner c' x.
Proof.
  revert c'. induction c as [|a t IH]; intro c'.
  { exists c'. split; [cbn; lia|]. intro x. cbn. ring. }
  destruct c' as [|b t']. { exists (a :: t). split; [cbn; lia|]. intro x. cbn. ring. }
  destruct (IH t') as [p [Hl Hp]]. exists (a + b :: p). split; [cbn in *; lia|]. intro x. cbn [horner]. rewrite Hp. ring.
Qed.
Lemma horner_scale k c : exists p, (length p <= length c)%nat /\ forall x, horner p x = k * horner c x.
Proof.
  exists (map (Rmult k) c). split; [now rewrite map_length|]. intro x.
  induction c as [|a t IH]; cbn [map horner]; [ring|rewrite IH; ring].
Qed.
Lemma horner_aff a b c : exists p, (length p <= length c)%nat /\ forall x, horner p x = horner c (a * x + b).
Proof.
  induction c as [|h t [q [Hl Hq]]]; [exists []; split; auto|].
  destruct (horner_scale b q) as [p1 [L1 H1]]. destruct (horner_scale a q) as [p2 [L2 H2]].
  destruct (horner_exists_add p1 (h :: p2)) as [p [L3 H3]]. exists p. split; [cbn in *; lia|].
  intro x. rewrite H3. cbn [horner]. rewrite H1, H2, Hq. ring.
Qed.
Lemma poly_add c c' : exists p, (length p <= Nat.max (length c) (length c'))%nat /\ forall x, PolyAt p x = PolyAt c x + PolyAt c' x.
Proof. destruct (horner_exists_add c c') as [p [H1 H2]]. exists p. split; auto. intro x. rewrite !PolyAt_horner. apply H2. Qed.
Lemma poly_scale k c : exists p, (length p <= length c)%nat /\ forall x, PolyAt p x = k * PolyAt c x.
Proof. destruct (horner_scale k c) as [p [H1 H2]]. exists p. split; auto. intro x. rewrite !PolyAt_horner. apply H2. Qed.
Lemma poly_aff a b c : exists p, (length p <= length c)%nat /\ forall x, PolyAt p x = PolyAt c (a * x + b).
Proof. destruct (horner_aff a b c) as [p [H1 H2]]. exists p. split; auto. intro x. rewrite !PolyAt_horner. apply H2. Qed.
Lemma poly_const k x : PolyAt [k] x = k.
Proof. rewrite PolyAt_horner. cbn. ring. Qed.

(** ** Sums of squared residuals *)
Lemma Sse_ext f g xs ys : (forall x, f x = g x) -> Sse f xs ys = Sse g xs ys.
Proof. intro H. revert ys. induction xs as [|x t IH]; intros [|y ys]; cbn [Sse]; auto. now rewrite H, IH. Qed.
Lemma Sse_map f g xs ys : Sse f (map g xs) ys = Sse (fun x => f (g x)) xs ys.
Proof. revert ys. induction xs as [|x t IH]; intros [|y ys]; cbn [Sse map]; auto. now rewrite IH. Qed.
Lemma Sse_nonneg f xs ys : 0 <= Sse f xs ys.
Proof. revert ys. induction xs as [|x t IH]; intros [|y ys]; cbn [Sse]; try lra. specialize (IH ys). pose proof (pow2_ge_0 (f x - y)). lra. Qed.
Lemma Sse_point f xs ys i x y : nth_error xs i = Some x -> nth_error ys i = Some y -> (f x - y) ^ 2 <= Sse f xs ys.
Proof.
  revert ys i. induction xs as [|a t IH]; intros [|b ys] [|i]; cbn [nth_error Sse]; try discriminate.
  - intros [= ->] [= ->]. pose proof (Sse_nonneg f t ys). lra.
  - intros H1 H2. specialize (IH ys i H1 H2). pose proof (pow2_ge_0 (f a - b)). lra.
Qed.
Lemma Sse_zero f xs ys : length xs = length ys -> Sse f xs ys <= 0 -> map f xs = ys.
Proof.
  revert ys. induction xs as [|a t IH]; intros [|b ys] HL H; cbn [length] in HL; try discriminate; auto.
  cbn [Sse] in H. pose proof (Sse_nonneg f t ys). pose proof (pow2_ge_0 (f a - b)). cbn [map].
  rewrite (IH ys) by (try lia; lra). f_equal.
  assert (E : (f a - b) * (f a - b) = 0) by (cbn in *; lra). apply Rmult_integral in E. lra.
Qed.
Lemma Sse_exact f xs ys : map f xs = ys -> Sse f xs ys = 0.
Proof. intros <-. induction xs as [|a t IH]; auto. cbn [map Sse]. rewrite IH. ring. Qed.
Lemma Sse_mid f g xs ys : Sse (fun x => (f x + g x) / 2) xs ys + Sse (fun x => (f x - g x) / 2 + 0) xs (map (fun _ => 0) ys)
  = (Sse f xs ys + Sse g xs ys) / 2.
Proof. revert ys. induction xs as [|a t IH]; intros [|b ys]; cbn [Sse map]; try lra. specialize (IH ys). lra. Qed.
(** Least squares determine the fitted values. *)
Lemma ls_unique (D : nat) xs ys c1 c2 : length xs = length ys -> (length c1 <= D)%nat -> (length c2 <= D)%nat ->
  (forall c, (length c <= D)%nat -> Sse (PolyAt c1) xs ys <= Sse (PolyAt c) xs ys) ->
  (forall c, (length c <= D)%nat -> Sse (PolyAt c2) xs ys <= Sse (PolyAt c) xs ys) ->
  map (PolyAt c1) xs = map (PolyAt c2) xs.
Proof.
  intros HL L1 L2 M1 M2. pose proof (M1 c2 L2). pose proof (M2 c1 L1).
  destruct (poly_add c1 c2) as [s [Ls Hs]]. destruct (poly_scale (/ 2) s) as [m [Lm Hm]].
  assert (Lm' : (length m <= D)%nat) by lia. pose proof (M1 m Lm') as M.
  rewrite (Sse_ext (PolyAt m) (fun x => (PolyAt c1 x + PolyAt c2 x) / 2)) in M by (intro x; rewrite Hm, Hs; lra).
  pose proof (Sse_mid (PolyAt c1) (PolyAt c2) xs ys) as E.
  assert (Z : Sse (fun x => (PolyAt c1 x - PolyAt c2 x) / 2 + 0) xs (map (fun _ => 0) ys) <= 0) by lra.
  apply Sse_zero in Z; [|now rewrite map_length]. clear - Z HL. revert ys Z HL.
  induction xs as [|a t IH]; intros [|b ys] Z HL; cbn [length] in HL; try discriminate; auto. cbn [map] in *. injection Z as Z1 Z2.
  f_equal; [lra|]. eapply IH; [exact Z2|lia].
Qed.
Lemma Sse_app f xs xs' ys ys' : length xs = length ys -> Sse f (xs ++ xs') (ys ++ ys') = Sse f xs ys + Sse f xs' ys'.
Proof.
  revert ys. induction xs as [|a t IH]; intros [|b ys] HL; cbn [length] in HL; try discriminate; cbn [app Sse]; [ring|].
  rewrite IH by lia. ring.
Qed.
Lemma Sse_rev f xs ys : length xs = length ys -> Sse f (rev xs) (rev ys) = Sse f xs ys.
Proof.
  revert ys. induction xs as [|a t IH]; intros [|b ys] HL; cbn [length] in HL; try discriminate; auto.
  cbn [rev]. rewrite Sse_app by (rewrite !rev_length; lia). rewrite IH by lia. cbn [Sse]. ring.
Qed.
Lemma Sse_shift f k xs ys : Sse (fun x => f x + k) xs ys
  = Sse f xs ys + 2 * k * (Rsum (map f (firstn (length ys) xs)) - Rsum (firstn (length xs) ys)) + INR (Nat.min (length xs) (length ys)) * (k * k).
Proof.
  revert ys. induction xs as [|a t IH]; intros [|b ys]; cbn [Sse length firstn map Rsum Nat.min]; try (cbn; lra).
  rewrite IH, S_INR. ring.
Qed.

(** ** The staircase *)
Lemma fit_steps_R (eigs : list R) : fit_steps eigs = Staircase (length eigs).
Proof. unfold fit_steps, Staircase. apply map_ext. intro k. cbn. symmetry. apply INR_IZR_INZ. Qed.
Lemma Staircase_length n : length (Staircase n) = n.
Proof. unfold Staircase. now rewrite map_length, seq_length. Qed.
Lemma Staircase_nth n i : (i < n)%nat -> nth_error (Staircase n) i = Some (INR (i + 1)).
Proof.
  intro H. unfold Staircase. rewrite nth_error_map.
  replace (nth_error (seq 1 n) i) with (Some (i + 1)%nat); auto.
  symmetry. rewrite (nth_error_nth' _ 0%nat) by (now rewrite seq_length). rewrite seq_nth by lia. f_equal. lia.
Qed.
Lemma Staircase_S n : Staircase (S n) = Staircase n ++ [INR (n + 1)].
Proof. unfold Staircase. rewrite seq_S, map_app. cbn [map]. now rewrite Nat.add_comm. Qed.
Lemma seq_shift_INR n : map INR (seq 2 n) = map (fun s => s + 1) (Staircase n).
Proof. unfold Staircase. rewrite <- (seq_shift n 1), !map_map. apply map_ext. intro k. now rewrite S_INR. Qed.
Lemma Staircase_rev n : rev (Staircase n) = map (fun s => INR (n + 1) - s) (Staircase n).
Proof.
  induction n as [|n IH]; auto. rewrite Staircase_S at 1. rewrite rev_app_distr. cbn [rev app]. rewrite IH.
  change (Staircase (S n)) with (INR 1 :: map INR (seq 2 n)). rewrite seq_shift_INR. cbn [map]. rewrite map_map. f_equal.
  - rewrite !plus_INR, (S_INR n). cbn. ring.
  - apply map_ext. intro s. rewrite !plus_INR, (S_INR n). ring.
Qed.
Lemma Staircase_sum n : Rsum (Staircase n) = INR n * (INR n + 1) / 2.
Proof.
  induction n as [|n IH]; [cbn; lra|]. rewrite Staircase_S.
  assert (A : forall a b, Rsum (a ++ b) = Rsum a + Rsum b) by (induction a; intro b; cbn [app Rsum]; [ring|rewrite IHa; ring]).
  rewrite A, IH. cbn [Rsum]. rewrite plus_INR, (S_INR n). change (INR 1) with 1. field.
Qed.
Lemma Staircase_gaps n : Gaps (Staircase n) = repeat 1 (n - 1).
Proof.
  destruct n as [|n]; auto. replace (S n - 1)%nat with n by lia.
  unfold Staircase. generalize 1%nat as k. induction n as [|n IH]; intro k; [reflexivity|].
  change (seq k (S (S n))) with (k :: seq (S k) (S n)). cbn [map repeat].
  specialize (IH (S k)). change (seq (S k) (S n)) with (S k :: seq (S (S k)) n) in *. cbn [map Gaps] in *.
  rewrite IH. f_equal. rewrite S_INR. ring.
Qed.
Lemma Staircase_sorted n : StronglySorted Rle (Staircase n).
Proof.
  unfold Staircase. generalize 1%nat as k. induction n as [|n IH]; intro k; cbn [seq map]; constructor; auto.
  apply Forall_forall. intros x Hx. apply in_map_iff in Hx as [j [<- Hj]]. apply in_seq in Hj. apply le_INR. lia.
Qed.

(** ** Counting *)
Lemma CountLe_prefix (eigs : list R) i e : Ascending eigs -> nth_error eigs i = Some e ->
  (Z.of_nat (i + 1) <= CountLe eigs e)%Z /\
  (CountLe eigs e = Z.of_nat (i + 1) <-> forall e', nth_error eigs (i + 1) = Some e' -> e < e').
Proof.
  intros Hs Hi. pose proof (nth_error_split eigs i Hi) as [l1 [l2 [-> Hl]]]. subst i.
  apply StronglySorted_R in Hs.
  assert (H1 : List.Forall (fun v => v <= e) l1).
  { clear Hi. induction l1 as [|a t IH]; constructor.
    - inversion_clear Hs. rewrite Forall_forall in H0. apply H0, in_or_app. right. now left.
    - inversion_clear Hs. now apply IH. }
  assert (H2 : StronglySorted Rle (e :: l2)).
  { clear Hi H1. induction l1 as [|a t IH]; auto. inversion_clear Hs. now apply IH. }
  rewrite CountLe_app. rewrite CountLe_all by (eapply Forall_impl; [|exact H1]; intros a Ha; now apply Le_R).
  cbn [CountLe]. replace (nle e e) with true by (symmetry; apply Le_R; lra).
  rewrite nth_error_app2 by lia. replace (length l1 + 1 - length l1)%nat with 1%nat by lia. cbn [nth_error].
  pose proof (CountLe_nonneg l2 e) as Hn. rewrite Nat2Z.inj_add. cbn [Z.of_nat].
  split; [lia|]. destruct l2 as [|b l2].
  - cbn [CountLe nth_error]. split; [intros _ e' [=]|lia].
  - cbn [nth_error]. pose proof (CountLe_nonneg l2 e) as Hn'. cbn [CountLe] in *. inversion_clear H2. inversion_clear H. inversion_clear H0.
    split.
    + intros Hc e' [= <-]. destruct (nle b e) eqn:E; [lia|]. apply Rnot_le_lt. intro C. apply Le_R in C. unfold Le in C. congruence.
    + intro Hc. specialize (Hc b eq_refl).
      replace (nle b e) with false by (symmetry; apply not_true_iff_false; intro C; apply Le_R in C; lra).
      rewrite CountLe_none; [lia|]. eapply Forall_impl; [|exact H3]. intros a Ha. apply not_true_iff_false. intro C. apply Le_R in C. cbn in *. lra.
Qed.

(** ** Rearrangement *)
Fixpoint ssq (a b : list R) : R := match a, b with x :: a', y :: b' => (x - y) ^ 2 + ssq a' b' | _, _ => 0 end.
Lemma Sse_ssq f xs ys : Sse f xs ys = ssq (map f xs) ys.
Proof. revert ys. induction xs as [|a t IH]; intros [|b ys]; cbn [Sse map ssq]; auto. now rewrite IH. Qed.
Lemma ssq_nonneg a b : 0 <= ssq a b.
Proof. revert b. induction a as [|x t IH]; intros [|y b]; cbn [ssq]; try lra. specialize (IH b). pose proof (pow2_ge_0 (x - y)). lra. Qed.
Lemma insert_length_R (x : R) l : length (insert_by np_le x l) = S (length l).
Proof. rewrite <- (Permutation_length (insert_perm np_le x l)). reflexivity. Qed.
Lemma ssq_insert x l y ys : length l = length ys -> StronglySorted Rle (y :: ys) -> ssq (insert_by np_le x l) (y :: ys) <= ssq (x :: l) (y :: ys).
Proof.
  revert x y ys. induction l as [|z l IH]; intros x y ys HL Hs; cbn [insert_by]; [lra|].
  rewrite np_le_R. destruct (Rle_dec x z) as [E|E]; [lra|].
  destruct ys as [|y2 ys]; [discriminate|]. inversion_clear Hs as [|? ? Hs' Hy]. inversion_clear Hy as [|? ? Hy1 Hy2].
  cbn [length] in HL. specialize (IH x y2 ys (eq_add_S _ _ HL) Hs'). cbn [ssq] in *.
  apply Rle_trans with ((z - y) ^ 2 + ((x - y2) ^ 2 + ssq l ys)); [lra|].
  apply Rnot_le_lt in E. assert (0 <= (x - z) * (y2 - y)) by (apply Rmult_le_pos; lra). nra.
Qed.
Lemma ssq_sort l ys : length l = length ys -> StronglySorted Rle ys -> ssq (np_sort l) ys <= ssq l ys.
Proof.
  revert ys. induction l as [|x l IH]; intros [|y ys] HL Hs; cbn [length] in HL; try discriminate; [cbn; lra|].
  cbn [np_sort]. pose proof (ssq_insert x (np_sort l) y ys) as H. rewrite np_sort_length in H.
  specialize (H (eq_add_S _ _ HL) Hs). inversion_clear Hs as [|? ? Hs' Hy]. specialize (IH ys (eq_add_S _ _ HL) Hs').
  cbn [ssq] in *. lra.
Qed.
Lemma ssq_gaps l : forall k, Rsum (map (fun g => (g - 1) ^ 2) (Gaps l)) <= 4 * ssq l (map INR (seq k (length l))).
Proof.
  assert (H : forall l k, Rsum (map (fun g => (g - 1) ^ 2) (Gaps l)) +
     match l with [] => 0 | x :: _ => 2 * (x - INR k) ^ 2 end <= 4 * ssq l (map INR (seq k (length l)))).
  { clear l. induction l as [|x t IH]; intro k; [cbn; lra|]. specialize (IH (S k)). cbn [length seq map ssq].
    destruct t as [|y t]. { cbn [Gaps map Rsum length seq ssq]. pose proof (pow2_ge_0 (x - INR k)). lra. }
    cbn [Gaps map Rsum]. fold (Gaps (y :: t)). set (S1 := Rsum (map (fun g => (g - 1) ^ 2) (Gaps (y :: t)))) in *.
    change (map (fun g => (g - 1) ^ 2) (match t with [] => [] | _ => _ end)) with (map (fun g => (g - 1) ^ 2) (Gaps (y :: t))).
    set (S2 := ssq (y :: t) (map INR (seq (S k) (length (y :: t))))) in *. rewrite S_INR in IH.
    fold S1. assert (((y - x) - 1) ^ 2 <= 2 * (y - (INR k + 1)) ^ 2 + 2 * (x - INR k) ^ 2).
    { pose proof (pow2_ge_0 ((y - (INR k + 1)) + (x - INR k))). nra. }
    lra. }
  intro k. specialize (H l k). destruct l as [|x t]; [cbn; lra|]. pose proof (pow2_ge_0 (x - INR k)). lra.
Qed.
