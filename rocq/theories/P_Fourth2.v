(** Averages of fourth powers: the Hermitian and the tridiagonal generators, and the level density. *)
From Coq Require Import List ZArith Bool Arith Lia Reals Lra Ring.
From Coquelicot Require Import Coquelicot.
From Verif Require Import Base M_Generate S_Generate S_Normal S_Rotate S_Fourth P_Generate P_Surmise P_Rotate T_Rotate P_Moments P_Wishart P_Fourth.
Import ListNotations.
Local Open Scope R_scope.

(** ** Four complex linear forms *)
Definition clin K (ur ui : nat -> R) (l : list R) : C := (lin K ur l, lin K ui l).
Definition cdot K (ur ui vr vi : nat -> R) : C := (dot K ur vr - dot K ui vi, dot K ur vi + dot K ui vr).
Lemma cwick4 K ar ai br bi cr ci dr di :
  NormalAverage K (fun l => fst (Cmult (Cmult (clin K ar ai l) (clin K br bi l)) (Cmult (clin K cr ci l) (clin K dr di l))))
    (fst (Cplus (Cplus (Cmult (cdot K ar ai br bi) (cdot K cr ci dr di)) (Cmult (cdot K ar ai cr ci) (cdot K br bi dr di)))
      (Cmult (cdot K ar ai dr di) (cdot K br bi cr ci)))).
Proof.
  pose (w := fun u v x y => (fun l => lin K u l * lin K v l * lin K x l * lin K y l)).
  pose (e := fun u v x y => dot K u v * dot K x y + dot K u x * dot K v y + dot K u y * dot K v x).
  pose proof (navg_terms K [(1, w ar br cr dr, e ar br cr dr); (-1, w ai bi cr dr, e ai bi cr dr); (-1, w ai br ci dr, e ai br ci dr); (-1, w ai br cr di, e ai br cr di);
    (-1, w ar bi ci dr, e ar bi ci dr); (-1, w ar bi cr di, e ar bi cr di); (-1, w ar br ci di, e ar br ci di); (1, w ai bi ci di, e ai bi ci di)]) as H.
  refine (navg_ext _ _ _ _ _ (navg_value _ _ _ _ _ (H _))).
  - intros l _. cbn [fold_right fst snd]. unfold clin, w, Cmult. cbn [fst snd]. ring.
  - cbn [fold_right fst snd]. unfold cdot, e, Cmult, Cplus. cbn [fst snd]. ring.
  - intros c f v HI. cbn [In] in HI. repeat (destruct HI as [HI|HI]; [injection HI as <- <- <-; apply wick4|]). contradiction.
Qed.
(** The generated Hermitian matrix as such forms. *)
Definition rco (n i j : nat) (p : nat) : R := / 2 * kron (i * n + j) p + / 2 * kron (j * n + i) p.
Definition ico (n i j : nat) (p : nat) : R := / 2 * kron (n * n + (i * n + j)) p + - / 2 * kron (n * n + (j * n + i)) p.
Lemma gue_lin n l i j : (i < n)%nat -> (j < n)%nat -> gue n l i j = clin (2 * (n * n)) (rco n i j) (ico n i j) l.
Proof.
  intros Hi Hj. pose proof (proj1 (row_major n i j Hi Hj)). pose proof (proj1 (row_major n j i Hj Hi)). unfold clin, rco, ico. rewrite !lin_comb, !lin_pick by lia.
  rewrite gue_draws by assumption. unfold complex_draws, Cplus, Cmult, RtoC, Cconj. cbn [fst snd]. f_equal; ring.
Qed.
Lemma kron_far n i j k l : (i < n)%nat -> (j < n)%nat -> kron (i * n + j) (n * n + (k * n + l)) = 0.
Proof. intros Hi Hj. pose proof (proj1 (row_major n i j Hi Hj)). unfold kron. destruct (Nat.eqb_spec (i * n + j) (n * n + (k * n + l))); [lia|reflexivity]. Qed.
Lemma kron_both n p q : kron (n + p) (n + q) = kron p q.
Proof. unfold kron. destruct (Nat.eqb_spec p q) as [->|]; [now rewrite Nat.eqb_refl|]. destruct (Nat.eqb_spec (n + p) (n + q)); [lia|reflexivity]. Qed.
Lemma gue_cdot n i j k l : (i < n)%nat -> (j < n)%nat -> (k < n)%nat -> (l < n)%nat ->
  cdot (2 * (n * n)) (rco n i j) (ico n i j) (rco n k l) (ico n k l) = RtoC (kron i l * kron j k).
Proof.
  intros Hi Hj Hk Hl. pose proof (proj1 (row_major n i j Hi Hj)). pose proof (proj1 (row_major n j i Hj Hi)). pose proof (proj1 (row_major n k l Hk Hl)). pose proof (proj1 (row_major n l k Hl Hk)).
  unfold cdot, rco, ico, RtoC. f_equal; rewrite !dot_comb, !(dot_sym _ (kron _)), !dot_comb, !dot_pick by lia.
  - rewrite !kron_both, !kron_place by assumption. rewrite (kron_sym k i), (kron_sym l j), (kron_sym k j), (kron_sym l i). field.
  - rewrite !(kron_sym (n * n + _) _), !kron_far by assumption. ring.
Qed.
Lemma gue_conj n l i j : (i < n)%nat -> (j < n)%nat -> gue n l j i = Cconj (gue n l i j).
Proof. intros Hi Hj. rewrite !gue_draws by assumption. unfold Cplus, Cmult, RtoC, Cconj. cbn [fst snd]. f_equal; ring. Qed.
Lemma gue_fourths n : NormalAverage (2 * (n * n)) (fun l => let re := fun i j => fst (gue n l i j) in let im := fun i j => snd (gue n l i j) in
  SumTo n (fun i => SumTo n (fun k => cre2 n re im i k * cre2 n re im i k + cim2 n re im i k * cim2 n re im i k))) (2 * INR n ^ 3 + INR n).
Proof.
  pose (g := fun l i j => clin (2 * (n * n)) (rco n i j) (ico n i j) l).
  apply (navg_ext _ (fun l => SumTo n (fun i => SumTo n (fun k => SumTo n (fun j => SumTo n (fun h => fst (Cmult (Cmult (g l i j) (g l j k)) (Cmult (g l h i) (g l k h))))))))).
  { intros l _. cbv zeta. apply SumTo_ext. intros i Hi. apply SumTo_ext. intros k Hk. unfold cre2, cim2. rewrite !SumTo_product, <- SumTo_add. apply SumTo_ext. intros j Hj.
    rewrite <- SumTo_add. apply SumTo_ext. intros h Hh. unfold g. rewrite <- !gue_lin by assumption. rewrite (gue_conj n l i h), (gue_conj n l h k) by assumption.
    unfold Cmult, Cconj. cbn [fst snd]. ring. }
  apply (navg_value _ _ (SumTo n (fun i => SumTo n (fun k => SumTo n (fun j => SumTo n (fun h => kron i k + kron j h * (1 + kron i j * kron k j))))))).
  - transitivity (SumTo n (fun i => SumTo n (fun k => (INR n * INR n + 1) * kron i k + INR n))).
    + apply SumTo_ext. intros i Hi. apply SumTo_ext. intros k Hk. rewrite (SumTo_ext n _ (fun j => (INR n * kron i k + 1) + kron i j * kron k j)).
      * rewrite SumTo_add, SumTo_const, (kron_pick n i (fun j => kron k j)) by exact Hi. rewrite (kron_sym k i). ring.
      * intros j Hj. rewrite SumTo_add, SumTo_const, (kron_pick n j (fun h => 1 + kron i j * kron k j)) by exact Hj. ring.
    + rewrite (SumTo_ext n _ (fun i => INR n * INR n + 1 + INR n * INR n)); [rewrite SumTo_const; ring|]. intros i Hi. rewrite SumTo_add, SumTo_scale, SumTo_const, kron_total by exact Hi. ring.
  - apply navg_sum4. intros i k j h Hi Hk Hj Hh.
    pose proof (cwick4 (2 * (n * n)) (rco n i j) (ico n i j) (rco n j k) (ico n j k) (rco n h i) (ico n h i) (rco n k h) (ico n k h)) as W. rewrite !gue_cdot in W by assumption.
    refine (navg_value _ _ _ _ _ W). unfold Cmult, Cplus, RtoC. cbn [fst snd]. rewrite !kron_refl. krons.
Qed.

(** ** Tridiagonal matrices: adding one row and column *)
Definition quartic (n : nat) (m : nat -> nat -> R) : R := SumTo n (fun i => SumTo n (fun k => msquare n m i k * msquare n m i k)).
Lemma quartic_border n m : (forall i j, m i j = m j i) ->
  quartic (S n) m = quartic n m + 2 * SumTo n (fun i => SumTo n (fun k => msquare n m i k * (m i n * m k n))) + SumTo n (fun i => m i n * m i n) * SumTo n (fun i => m i n * m i n)
    + 2 * SumTo n (fun i => (msquare n m i n + m i n * m n n) * (msquare n m i n + m i n * m n n))
    + (SumTo n (fun i => m i n * m i n) + m n n * m n n) * (SumTo n (fun i => m i n * m i n) + m n n * m n n).
Proof.
  intro Hs. unfold quartic at 1. cbn [SumTo]. rewrite SumTo_add.
  assert (forall i k, msquare (S n) m i k = msquare n m i k + m i n * m k n) as E by (intros i k; unfold msquare; cbn [SumTo]; now rewrite (Hs n k)).
  assert (msquare (S n) m n n = SumTo n (fun i => m i n * m i n) + m n n * m n n) as E2.
  { rewrite E. f_equal. unfold msquare. apply SumTo_ext. intros j _. now rewrite (Hs n j). }
  rewrite E2.
  assert (SumTo n (fun k => msquare (S n) m n k * msquare (S n) m n k) = SumTo n (fun i => (msquare n m i n + m i n * m n n) * (msquare n m i n + m i n * m n n))) as E3.
  { apply SumTo_ext. intros k _. rewrite !E. assert (msquare n m n k = msquare n m k n) as -> by (apply SumTo_ext; intros j _; rewrite (Hs n j), (Hs j k); ring). ring. }
  rewrite E3. rewrite (SumTo_ext n (fun i => msquare (S n) m i n * msquare (S n) m i n) (fun i => (msquare n m i n + m i n * m n n) * (msquare n m i n + m i n * m n n))) by (intros; now rewrite !E).
  assert (SumTo n (fun i => SumTo n (fun k => msquare (S n) m i k * msquare (S n) m i k)) = quartic n m + 2 * SumTo n (fun i => SumTo n (fun k => msquare n m i k * (m i n * m k n))) +
    SumTo n (fun i => m i n * m i n) * SumTo n (fun i => m i n * m i n)) as ->; [|ring].
  rewrite SumTo_product. unfold quartic. rewrite <- SumTo_scale, <- !SumTo_add. apply SumTo_ext. intros i _. rewrite <- SumTo_scale, <- !SumTo_add. apply SumTo_ext. intros k _. rewrite E. ring.
Qed.
Definition before (o : nat -> R) (m : nat) : R := match m with O => 0 | S k => o k end.
Lemma tri_sym d o i j : tri d o i j = tri d o j i.
Proof.
  unfold tri. rewrite (Nat.eqb_sym j i). destruct (Nat.eqb_spec i j) as [->|]; [reflexivity|].
  destruct (Nat.eqb_spec i (S j)), (Nat.eqb_spec j (S i)); try lia; reflexivity.
Qed.
Lemma tri_last d o m i : (i < S m)%nat -> tri d o i (S m) = kron m i * o m.
Proof.
  intro Hi. unfold tri, kron. destruct (Nat.eqb_spec i (S m)); [lia|]. destruct (Nat.eqb_spec i (S (S m))); [lia|]. rewrite (Nat.eqb_sym (S m) (S i)). cbn [Nat.eqb]. rewrite (Nat.eqb_sym m i).
  destruct (Nat.eqb_spec i m) as [->|]; ring.
Qed.
Lemma tri_diag d o i : tri d o i i = d i.
Proof. unfold tri. now rewrite Nat.eqb_refl. Qed.
Lemma quartic_tri d o m : quartic (S (S m)) (tri d o) = quartic (S m) (tri d o) + 4 * (o m * o m) * (before o m * before o m)
  + 4 * (o m * o m) * (d m * d m + d m * d (S m) + d (S m) * d (S m)) + 2 * (o m * o m) * (o m * o m) + (d (S m) * d (S m)) * (d (S m) * d (S m)).
Proof.
  rewrite quartic_border by apply tri_sym. set (t := tri d o). set (b := o m).
  assert (SumTo (S m) (fun i => t i (S m) * t i (S m)) = b * b) as E1.
  { rewrite (SumTo_ext _ _ (fun i => kron m i * (kron m i * (b * b)))) by (intros i Hi; unfold t; rewrite tri_last by exact Hi; fold b; ring).
    rewrite (kron_pick (S m) m (fun i => kron m i * (b * b))) by lia. rewrite kron_refl. ring. }
  assert (msquare (S m) t m m = before o m * before o m + d m * d m) as E0.
  { unfold msquare. cbn [SumTo]. replace (t m m) with (d m) by (symmetry; apply tri_diag). f_equal. destruct m as [|m]; [cbn; ring|].
    rewrite (SumTo_ext _ _ (fun i => kron m i * (kron m i * (o m * o m)))) by (intros i Hi; unfold t; rewrite (tri_sym d o (S m) i), tri_last by exact Hi; ring).
    rewrite (kron_pick (S m) m (fun i => kron m i * (o m * o m))) by lia. rewrite kron_refl. cbn. ring. }
  assert (SumTo (S m) (fun i => SumTo (S m) (fun k => msquare (S m) t i k * (t i (S m) * t k (S m)))) = (before o m * before o m + d m * d m) * (b * b)) as E2.
  { rewrite (SumTo_ext _ _ (fun i => kron m i * (msquare (S m) t i m * (b * b)))); [rewrite (kron_pick (S m) m (fun i => msquare (S m) t i m * (b * b))) by lia; now rewrite E0|].
    intros i Hi. rewrite (SumTo_ext _ _ (fun k => kron m k * (kron m i * (msquare (S m) t i k * (b * b))))).
    - rewrite (kron_pick (S m) m (fun k => kron m i * (msquare (S m) t i k * (b * b)))) by lia. reflexivity.
    - intros k Hk. unfold t at 2 3. rewrite !tri_last by assumption. fold b. ring. }
  assert (forall i, (i < S m)%nat -> msquare (S m) t i (S m) = t i m * b) as E3.
  { intros i Hi. unfold msquare. rewrite (SumTo_ext _ _ (fun j => kron m j * (t i j * b))).
    - now rewrite (kron_pick (S m) m (fun j => t i j * b)) by lia.
    - intros j Hj. unfold t at 2. rewrite tri_last by exact Hj. fold b. ring. }
  assert (SumTo (S m) (fun i => (msquare (S m) t i (S m) + t i (S m) * t (S m) (S m)) * (msquare (S m) t i (S m) + t i (S m) * t (S m) (S m)))
    = b * b * (before o m * before o m + d m * d m + 2 * (d m * d (S m)) + d (S m) * d (S m))) as E4.
  { rewrite (SumTo_ext _ _ (fun i => (b * b) * (t m i * t i m) + kron m i * (b * b * (2 * (t i m * d (S m)) + d (S m) * d (S m))))).
    - rewrite SumTo_add, SumTo_scale. change (SumTo (S m) (fun i => t m i * t i m)) with (msquare (S m) t m m). rewrite E0.
      rewrite (kron_pick (S m) m (fun i => b * b * (2 * (t i m * d (S m)) + d (S m) * d (S m)))) by lia. replace (t m m) with (d m) by (symmetry; apply tri_diag). ring.
    - intros i Hi. rewrite E3 by exact Hi. replace (t (S m) (S m)) with (d (S m)) by (symmetry; apply tri_diag). unfold t at 2 4. rewrite !tri_last by exact Hi. fold b.
      replace (t m i) with (t i m) by apply tri_sym. assert (kron m i * kron m i = kron m i) as HK by (unfold kron; destruct (Nat.eqb m i); ring).
      transitivity (b * b * (t i m * t i m) + 2 * (b * b) * (kron m i * (t i m * d (S m))) + b * b * (kron m i * kron m i) * (d (S m) * d (S m))); [ring|]. rewrite HK. ring. }
  rewrite E1, E2, E4. replace (t (S m) (S m)) with (d (S m)) by (symmetry; apply tri_diag). ring.
Qed.

(** ** Chi-square numbers as sums over their own draws *)
Definition offset (dofs : list nat) (k : nat) : nat := fold_right Nat.add 0%nat (firstn k dofs).
Lemma SumTo_block (a k : nat) (w : list R) : (a + k <= length w)%nat -> squares (firstn k (skipn a w)) = SumTo k (fun p => nth (a + p) w 0 * nth (a + p) w 0).
Proof.
  intro H. rewrite squares_SumTo. rewrite firstn_length, skipn_length, Nat.min_l by lia. apply SumTo_ext. intros p Hp. rewrite nth_firstn by exact Hp. now rewrite nth_skipn.
Qed.
Lemma chi_nth dofs : forall w k, (fold_right Nat.add 0 dofs <= length w)%nat -> (k < length dofs)%nat ->
  nth k (chi_squares dofs w) 0 = SumTo (nth k dofs 0%nat) (fun p => nth (offset dofs k + p) w 0 * nth (offset dofs k + p) w 0).
Proof.
  induction dofs as [|a t IH]; intros w k H Hk; [cbn in Hk; lia|]. cbn [fold_right] in H. destruct k as [|k].
  - cbn [chi_squares nth]. unfold offset. cbn [firstn fold_right]. rewrite <- (SumTo_block 0 a w) by lia. reflexivity.
  - cbn [chi_squares nth]. cbn [length] in Hk. rewrite IH by (rewrite ?skipn_length; lia). apply SumTo_ext. intros p _. rewrite nth_skipn. unfold offset. cbn [firstn fold_right].
    now rewrite Nat.add_assoc.
Qed.
Lemma offset_next dofs k : (k < length dofs)%nat -> offset dofs (S k) = (offset dofs k + nth k dofs 0)%nat.
Proof.
  revert k. induction dofs as [|a t IH]; intros k H; [cbn in H; lia|]. destruct k as [|k]; [unfold offset; cbn; lia|]. cbn [length] in H.
  specialize (IH k ltac:(lia)). unfold offset in *. cbn [firstn fold_right nth] in *. lia.
Qed.
Lemma offset_le dofs k : (offset dofs k <= fold_right Nat.add 0 dofs)%nat.
Proof.
  revert k. induction dofs as [|a t IH]; intros k; [unfold offset; rewrite firstn_nil; cbn; lia|]. destruct k as [|k]; [unfold offset; cbn; lia|]. specialize (IH k). unfold offset in *. cbn [firstn fold_right] in *. lia.
Qed.
Lemma chi_dof n k : (S k < n)%nat -> nth k (map Z.to_nat (chi_range n)) 0%nat = (n - 1 - k)%nat.
Proof.
  intro H. unfold chi_range. rewrite map_map. rewrite (nth_indep _ 0%nat (Z.to_nat (Z.of_nat n - 1 - Z.of_nat 0))) by (rewrite map_length, seq_length; lia).
  rewrite (map_nth (fun x => Z.to_nat (Z.of_nat n - 1 - Z.of_nat x))). rewrite seq_nth by lia. lia.
Qed.

(** ** The tridiagonal generator *)
Lemma quad4 K a b c d : (a < K)%nat -> (b < K)%nat -> (c < K)%nat -> (d < K)%nat ->
  NormalAverage K (fun l => nth a l 0 * nth b l 0 * nth c l 0 * nth d l 0) (kron a b * kron c d + kron a c * kron b d + kron a d * kron b c).
Proof.
  intros Ha Hb Hc Hd. pose proof (wick4 K (kron a) (kron b) (kron c) (kron d)) as W. rewrite !dot_pick in W by assumption.
  revert W. apply navg_ext. intros l _. now rewrite !lin_pick.
Qed.
Definition blocksum (K a k : nat) (l : list R) : R := SumTo k (fun p => nth (a + p) l 0 * nth (a + p) l 0).
Lemma block_pair K a k q r : (a + k <= K)%nat -> (q < a)%nat -> (r < a)%nat -> NormalAverage K (fun l => blocksum K a k l * (nth q l 0 * nth r l 0)) (INR k * kron q r).
Proof.
  intros H Hq Hr. apply (navg_ext _ (fun l => SumTo k (fun p => nth (a + p) l 0 * nth (a + p) l 0 * nth q l 0 * nth r l 0))).
  - intros l _. unfold blocksum. rewrite Rmult_comm, <- SumTo_scale. apply SumTo_ext. intros; ring.
  - apply (navg_value _ _ (SumTo k (fun _ => kron q r))); [apply SumTo_const|].
    apply (navg_SumTo K k (fun p l => nth (a + p) l 0 * nth (a + p) l 0 * nth q l 0 * nth r l 0)). intros p Hp.
    refine (navg_value _ _ _ _ _ (quad4 K (a + p) (a + p) q r ltac:(lia) ltac:(lia) ltac:(lia) ltac:(lia))). rewrite kron_refl.
    unfold kron at 2 3 4 5. destruct (Nat.eqb_spec (a + p) q); [lia|]. destruct (Nat.eqb_spec (a + p) r); [lia|]. ring.
Qed.
Lemma block_self K a k : (a + k <= K)%nat -> NormalAverage K (fun l => blocksum K a k l * blocksum K a k l) (INR k * INR k + 2 * INR k).
Proof.
  intros H. apply (navg_ext _ (fun l => SumTo k (fun p => SumTo k (fun q => nth (a + p) l 0 * nth (a + p) l 0 * nth (a + q) l 0 * nth (a + q) l 0)))).
  - intros l _. unfold blocksum. rewrite SumTo_product. apply SumTo_ext. intros p _. apply SumTo_ext. intros; ring.
  - apply (navg_value _ _ (SumTo k (fun p => SumTo k (fun q => 1 + 2 * kron p q)))).
    + rewrite (SumTo_ext _ _ (fun _ => INR k + 2)); [rewrite SumTo_const; ring|]. intros p Hp. rewrite SumTo_add, SumTo_const, SumTo_scale, kron_total by exact Hp. ring.
    + apply (navg_SumTo K k (fun p l => SumTo k (fun q => nth (a + p) l 0 * nth (a + p) l 0 * nth (a + q) l 0 * nth (a + q) l 0))). intros p Hp.
      apply (navg_SumTo K k (fun q l => nth (a + p) l 0 * nth (a + p) l 0 * nth (a + q) l 0 * nth (a + q) l 0)). intros q Hq.
      refine (navg_value _ _ _ _ _ (quad4 K (a + p) (a + p) (a + q) (a + q) ltac:(lia) ltac:(lia) ltac:(lia) ltac:(lia))). rewrite !kron_refl, kron_both.
      unfold kron. destruct (Nat.eqb p q); ring.
Qed.
Lemma block_cross K a k b h : (a + k <= b)%nat -> (b + h <= K)%nat -> NormalAverage K (fun l => blocksum K a k l * blocksum K b h l) (INR k * INR h).
Proof.
  intros H1 H2. apply (navg_ext _ (fun l => SumTo k (fun p => SumTo h (fun q => nth (a + p) l 0 * nth (a + p) l 0 * nth (b + q) l 0 * nth (b + q) l 0)))).
  - intros l _. unfold blocksum. rewrite SumTo_product. apply SumTo_ext. intros p _. apply SumTo_ext. intros; ring.
  - apply (navg_value _ _ (SumTo k (fun p => SumTo h (fun q => 1)))); [rewrite SumTo_const, SumTo_const; ring|].
    apply (navg_SumTo K k (fun p l => SumTo h (fun q => nth (a + p) l 0 * nth (a + p) l 0 * nth (b + q) l 0 * nth (b + q) l 0))). intros p Hp.
    apply (navg_SumTo K h (fun q l => nth (a + p) l 0 * nth (a + p) l 0 * nth (b + q) l 0 * nth (b + q) l 0)). intros q Hq.
    refine (navg_value _ _ _ _ _ (quad4 K (a + p) (a + p) (b + q) (b + q) ltac:(lia) ltac:(lia) ltac:(lia) ltac:(lia))). rewrite !kron_refl.
    unfold kron. destruct (Nat.eqb_spec (a + p) (b + q)); [lia|ring].
Qed.
Lemma tri_draws_tri n z i j : (i < n)%nat -> (j < n)%nat -> length z = (n + n * (n - 1) / 2)%nat ->
  tri_draws n z i j = tri (fun i => nth i z 0) (fun k => sqrt (nth k (chi_squares (map Z.to_nat (chi_range n)) (skipn n z)) 0) / sqrt 2) i j.
Proof.
  intros Hi Hj Hz. unfold tri_draws. rewrite tri_entry. unfold tri. destruct (Nat.eqb i j); [|reflexivity].
  rewrite (nth_map_div (Rmult (sqrt 2))) by ring. rewrite nth_firstn by exact Hi. field. exact P_Generate.sqrt2_nz.
Qed.
Definition level (x : R) : R := x * (x + 1) * (2 * x + 1) / 4 + 3 * x * (x + 1) + 3 * x.
Lemma tri_quartic_avg n m : (S m <= n)%nat ->
  NormalAverage (n + n * (n - 1) / 2) (fun z => quartic (S m) (tri (fun i => nth i z 0) (fun k => sqrt (nth k (chi_squares (map Z.to_nat (chi_range n)) (skipn n z)) 0) / sqrt 2)))
    (match m with O => 3 | S _ => 3 - INR n * (INR n - 1) + level (INR n - 1) - level (INR n - INR (S m)) end).
Proof.
  set (K := (n + n * (n - 1) / 2)%nat). set (dofs := map Z.to_nat (chi_range n)).
  assert (length dofs = (n - 1)%nat) as HL by (unfold dofs; rewrite map_length; apply chi_range_length).
  assert (fold_right Nat.add 0%nat dofs = n * (n - 1) / 2)%nat as HT by apply chi_range_total.
  pose (o := fun z k => sqrt (nth k (chi_squares dofs (skipn n z)) 0) / sqrt 2).
  pose (blk := fun k => blocksum K (n + offset dofs k) (n - 1 - k)).
  assert (forall z k, length z = K -> (S k < n)%nat -> o z k * o z k = / 2 * blk k z) as HO.
  { intros z k Hz Hk. unfold o. transitivity ((sqrt (nth k (chi_squares dofs (skipn n z)) 0) * sqrt (nth k (chi_squares dofs (skipn n z)) 0)) / (sqrt 2 * sqrt 2)); [field; exact P_Generate.sqrt2_nz|].
    rewrite sqrt_sqrt by apply chi_nonneg. rewrite sqrt_sqrt by lra. rewrite chi_nth by (rewrite ?skipn_length; lia). unfold dofs at 1. rewrite chi_dof by exact Hk. unfold blk, blocksum.
    unfold Rdiv. rewrite (Rmult_comm _ (/ 2)). f_equal. apply SumTo_ext. intros p _. rewrite nth_skipn. now rewrite Nat.add_assoc. }
  assert (forall k, (S k < n)%nat -> (offset dofs (S k) = offset dofs k + (n - 1 - k))%nat) as HN by (intros k Hk; rewrite offset_next by lia; unfold dofs at 2; now rewrite chi_dof).
  assert (forall k, (S k < n)%nat -> (n + offset dofs k + (n - 1 - k) <= K)%nat) as HB by (intros k Hk; pose proof (offset_le dofs (S k)); rewrite HN in * by exact Hk; lia).
  match goal with |- ?h -> NormalAverage _ _ ?v => change (h -> NormalAverage K (fun z => quartic (S m) (tri (fun i => nth i z 0) (o z))) v) end. induction m as [|m IH]; intro Hm.
  - apply (navg_ext _ (fun l => nth 0 l 0 * nth 0 l 0 * nth 0 l 0 * nth 0 l 0)).
    + intros l _. unfold quartic, msquare. cbn [SumTo]. rewrite tri_diag. ring.
    + refine (navg_value _ _ _ _ _ (quad4 K 0 0 0 0 ltac:(lia) ltac:(lia) ltac:(lia) ltac:(lia))). rewrite kron_refl. ring.
  - specialize (IH ltac:(lia)). pose proof (HB m ltac:(lia)) as HBm.
    set (V := match m with O => 3 | S _ => _ end) in IH.
    pose proof (navg_terms K [(1, (fun z => quartic (S m) (tri (fun i => nth i z 0) (o z))), V);
      (1, (fun z => blk m z * match m with O => 0 | S k => blk k z end), match m with O => 0 | S k => INR (n - 1 - k) * INR (n - 1 - m) end);
      (2, (fun z => blk m z * (nth m z 0 * nth m z 0)), INR (n - 1 - m) * 1);
      (2, (fun z => blk m z * (nth m z 0 * nth (S m) z 0)), INR (n - 1 - m) * 0);
      (2, (fun z => blk m z * (nth (S m) z 0 * nth (S m) z 0)), INR (n - 1 - m) * 1);
      (/ 2, (fun z => blk m z * blk m z), INR (n - 1 - m) * INR (n - 1 - m) + 2 * INR (n - 1 - m));
      (1, (fun z => nth (S m) z 0 * nth (S m) z 0 * nth (S m) z 0 * nth (S m) z 0), 3)]) as H.
    refine (navg_ext _ _ _ _ _ (navg_value _ _ _ _ _ (H _))).
    + intros z Hz. cbn [fold_right fst snd]. rewrite quartic_tri. rewrite (HO z m Hz) by lia. clear H V IH. destruct m as [|k]; cbn [before].
      * field.
      * rewrite (HO z k Hz) by lia. field.
    + cbn [fold_right fst snd]. assert (INR (n - 1 - m) = INR n - INR (S m)) as ED by (rewrite <- minus_INR by lia; f_equal; lia). rewrite ED.
      unfold V, level. destruct m as [|k].
      * rewrite !S_INR. cbn [INR]. field.
      * assert (INR (n - 1 - k) = INR n - INR (S k)) as -> by (rewrite <- minus_INR by lia; f_equal; lia). rewrite !S_INR. field.
    + intros c f v HI. cbn [In] in HI. repeat (destruct HI as [HI|HI]; [injection HI as <- <- <-|]); [| | | | | | |contradiction].
      * exact IH.
      * destruct m as [|k]; [apply (navg_ext _ (fun _ => 0)); [intros; ring|apply navg_const]|].
        pose proof (HN k ltac:(lia)). apply (navg_ext _ (fun z => blk k z * blk (S k) z)); [intros; ring|]. apply block_cross; lia.
      * apply (navg_value _ _ (INR (n - 1 - m) * kron m m)); [now rewrite kron_refl|]. apply block_pair; lia.
      * apply (navg_value _ _ (INR (n - 1 - m) * kron m (S m))); [unfold kron; destruct (Nat.eqb_spec m (S m)); [lia|reflexivity]|]. apply block_pair; lia.
      * apply (navg_value _ _ (INR (n - 1 - m) * kron (S m) (S m))); [now rewrite kron_refl|]. apply block_pair; lia.
      * apply block_self; lia.
      * refine (navg_value _ _ _ _ _ (quad4 K (S m) (S m) (S m) (S m) ltac:(lia) ltac:(lia) ltac:(lia) ltac:(lia))). rewrite kron_refl. ring.
Qed.
Lemma tri_fourths n : NormalAverage (n + n * (n - 1) / 2) (fun z => SumTo n (fun i => SumTo n (fun k => msquare n (tri_draws n z) i k * msquare n (tri_draws n z) i k)))
  ((2 * INR n ^ 3 + 5 * INR n ^ 2 + 5 * INR n) / 4).
Proof.
  destruct n as [|m]; [cbn; field|]. pose proof (tri_quartic_avg (S m) m (le_n _)) as H.
  refine (navg_ext _ _ _ _ _ (navg_value _ _ _ _ _ H)).
  - intros z Hz. unfold quartic. apply SumTo_ext. intros i Hi. apply SumTo_ext. intros k Hk.
    f_equal; unfold msquare; apply SumTo_ext; intros j Hj; rewrite !(tri_draws_tri (S m) z) by (assumption || exact Hz); reflexivity.
  - unfold level. destruct m as [|m]; [cbn [INR]; field|]. rewrite !S_INR. field.
Qed.
