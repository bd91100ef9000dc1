(** Proofs about trim indices, percentages, scores and selection (M_Trim). *)
From Coq Require Import List ZArith Bool Arith Lia Reals Lra Sorting.Sorted Sorting.Permutation.
From Verif Require Import Base S_Order S_EigVals S_Trim M_EigVals M_Trim P_Order P_Step P_EigVals P_Trim.
Import ListNotations.

(** ** Locating a contiguous piece in a spectrum without repeated values *)
Section Locate.
Context {F : Type} {N : Num F} {L : OrdLaws F N}.

Lemma Distinct_perm (l l' : list F) : Permutation l l' -> Distinct l -> Distinct l'.
Proof.
  unfold Distinct. intro Hperm. induction Hperm as [|x l l' Hp IH|x y l|]; intro H; auto.
  - inversion H; subst. constructor; auto. eapply Permutation_Forall; eauto.
  - inversion H as [|? ? H1 H2]; subst. inversion H2 as [|? ? H3 H4]; subst. inversion H1; subst.
    constructor; [constructor; [tauto|auto]|constructor; auto].
Qed.
Lemma Distinct_app (a b : list F) x y : Distinct (a ++ b) -> In x a -> In y b -> neq x y = false /\ neq y x = false.
Proof.
  unfold Distinct. induction a as [|z a IH]; intros H Ha Hb; [destruct Ha|].
  cbn in H. inversion H as [|? ? H1 H2]; subst. destruct Ha as [->|Ha]; auto.
  rewrite Forall_forall in H1. apply H1, in_or_app. now right.
Qed.
Lemma neq_refl (x : F) : NotNaN x -> neq x x = true.
Proof. unfold NotNaN, isnan. now destruct (neq x x). Qed.

Lemma locate_first (p e s : list F) a : Forall NotNaN (p ++ e ++ s) -> Distinct (p ++ e ++ s) -> head_opt e = Some a ->
  find_first neq (p ++ e ++ s) a = Z.of_nat (length p).
Proof.
  intros Hn Hd Ha. destruct e as [|a' e]; [discriminate|]. injection Ha as ->. apply find_first_eq. split.
  - exists a. split; [rewrite nth_error_app2, Nat.sub_diag by lia; reflexivity|]. apply neq_refl.
    rewrite Forall_forall in Hn. apply Hn, in_or_app. right. now left.
  - intros j x Hj Hx. destruct (le_lt_dec (length p) j); auto. rewrite nth_error_app1 in Hj by auto.
    apply nth_error_In in Hj. destruct (Distinct_app _ _ x a Hd Hj (or_introl eq_refl)). congruence.
Qed.
Lemma locate_last (p e s : list F) b : Forall NotNaN (p ++ e ++ s) -> Distinct (p ++ e ++ s) -> last_opt e = Some b ->
  find_last neq (p ++ e ++ s) b = (Z.of_nat (length p) + Z.of_nat (length e) - 1)%Z.
Proof.
  intros Hn Hd Hb. destruct (exists_last (l := e)) as (e' & b' & ->); [intros ->; discriminate|].
  rewrite last_opt_snoc in Hb. injection Hb as ->.
  rewrite app_length. cbn [length].
  replace (Z.of_nat (length p) + Z.of_nat (length e' + 1) - 1)%Z with (Z.of_nat (length (p ++ e'))) by (rewrite app_length; lia).
  replace (p ++ (e' ++ [b]) ++ s) with ((p ++ e') ++ b :: s) in * by now rewrite <- !app_assoc.
  apply find_last_eq. split.
  - exists b. split; [rewrite nth_error_app2, Nat.sub_diag by lia; reflexivity|]. apply neq_refl.
    rewrite Forall_forall in Hn. apply Hn, in_or_app. right. now left.
  - intros j x Hj Hx. destruct (le_lt_dec j (length (p ++ e'))) as [|Hlt]; auto.
    rewrite nth_error_app2 in Hj by lia. destruct (j - length (p ++ e'))%nat as [|m] eqn:E; [lia|].
    cbn in Hj. apply nth_error_In in Hj.
    replace ((p ++ e') ++ b :: s) with (((p ++ e') ++ [b]) ++ s) in Hd by now rewrite <- !app_assoc.
    destruct (Distinct_app _ _ b x Hd) as [? ?]; auto; [apply in_or_app; right; now left|congruence].
Qed.
End Locate.

(** ** Python slices *)
Lemma py_clip_id n i : (0 <= i <= n)%Z -> py_clip n i = i.
Proof. intro H. unfold py_clip. assert ((i <? 0)%Z = false) as -> by (apply Z.ltb_ge; lia). lia. Qed.
Lemma py_clip_range n i : (0 <= n)%Z -> (0 <= py_clip n i <= n)%Z.
Proof. intro H. unfold py_clip. lia. Qed.
Lemma py_slice_app {A} (p e s : list A) :
  py_slice (p ++ e ++ s) (Z.of_nat (length p)) (Z.of_nat (length p + length e)) = e.
Proof.
  unfold py_slice. rewrite !py_clip_id by (rewrite !app_length; lia).
  replace (Z.to_nat (Z.of_nat (length p + length e) - Z.of_nat (length p))) with (length e) by lia.
  rewrite Nat2Z.id, skipn_app, skipn_all, Nat.sub_diag. cbn [app skipn].
  rewrite firstn_app, firstn_all, Nat.sub_diag. cbn. apply app_nil_r.
Qed.
Lemma py_slice_nth {A} (l : list A) a b k : let n := Z.of_nat (length l) in
  let s := py_clip n a in let e := py_clip n b in
  nth_error (py_slice l a b) k = if (Z.of_nat k <? e - s)%Z then nth_error l (Z.to_nat s + k) else None.
Proof.
  intros n s e. unfold py_slice. fold n. fold s. fold e.
  assert (Hs : (0 <= s <= n)%Z) by (apply py_clip_range; lia).
  destruct (Z.ltb_spec (Z.of_nat k) (e - s)).
  - rewrite <- (firstn_skipn (Z.to_nat (e - s)) (skipn (Z.to_nat s) l)) at 1.
    transitivity (nth_error (skipn (Z.to_nat s) l) k).
    + rewrite firstn_skipn. clear -H. revert k H. generalize (skipn (Z.to_nat s) l). intro m.
      assert (forall j k, (k < j)%nat -> nth_error (firstn j m) k = nth_error m k) as K.
      { induction m as [|x m IH]; intros [|j] [|k] Hk; cbn; auto; try lia. apply IH. lia. }
      intros k Hk. apply K. lia.
    + generalize (Z.to_nat s). clear. intro j. revert l. induction j as [|j IH]; intros [|x l]; cbn; auto; now destruct k.
  - apply nth_error_None. rewrite firstn_length. lia.
Qed.

(** ** Score *)
Lemma ndiff_Gaps (l : list R) : ndiff l = Gaps l.
Proof. reflexivity. Qed.
Lemma nmean_R (l : list R) : nmean l = Rmean l.
Proof. unfold nmean, Rmean, nlen. rewrite nsum_R. cbn [ndiv nofZ Num_R]. now rewrite INR_IZR_INZ. Qed.
Lemma nvar1_R (l : list R) : nvar1 l = Rvar1 l.
Proof.
  unfold nvar1, Rvar1, nlen. rewrite nsum_R, nmean_R. cbn [ndiv nofZ Num_R nsub nmul n1]. now rewrite INR_IZR_INZ.
Qed.
Lemma Gaps_sum (l : list R) a b : head_opt l = Some a -> last_opt l = Some b -> Rsum (Gaps l) = (b - a)%R.
Proof. intros. rewrite <- ndiff_Gaps. now apply ndiff_sum. Qed.
Lemma Gaps_length (l : list R) : length (Gaps l) = (length l - 1)%nat.
Proof. rewrite <- ndiff_Gaps. apply ndiff_length. Qed.
Lemma Gaps_shift (l : list R) d : Gaps (map (fun x => x + d)%R l) = Gaps l.
Proof. induction l as [|a [|b t] IH]; auto. cbn [map Gaps] in *. rewrite IH. f_equal. lra. Qed.
Lemma Rsum_sq_nonneg (f : R -> R) l : (0 <= Rsum (map (fun x => f x * f x) l))%R.
Proof. induction l; cbn; [lra|]. pose proof (Rle_0_sqr (f a)). unfold Rsqr in H. lra. Qed.
Lemma Rvar1_nonneg (l : list R) : (2 <= length l)%nat -> (0 <= Rvar1 l)%R.
Proof.
  intro H. unfold Rvar1. apply Rmult_le_pos; [apply Rsum_sq_nonneg|].
  apply Rlt_le, Rinv_0_lt_compat. apply le_INR in H. cbn in H. lra.
Qed.
Lemma Rsum_sq_zero (f : R -> R) l : Rsum (map (fun x => f x * f x)%R l) = 0%R -> Forall (fun x => f x = 0%R) l.
Proof.
  induction l as [|a t IH]; intro H; constructor; cbn in H;
    pose proof (Rsum_sq_nonneg f t); pose proof (Rle_0_sqr (f a)) as K; unfold Rsqr in K.
  - apply Rsqr_0_uniq. unfold Rsqr. lra.
  - apply IH. lra.
Qed.

(** ** Selection *)
Section Argmin.
Context {F : Type} {N : Num F} {L : OrdLaws F N}.
Lemma argmin_from_spec (l : list (option F)) : Forall (fun o => match o with Some x => NotNaN x | None => True end) l ->
  forall (pre : list (option F)) best,
  match best with
  | None => Forall (fun o => o = None) pre
  | Some (j, b) => nth_error pre j = Some (Some b) /\ NotNaN b /\
      (forall k x, nth_error pre k = Some (Some x) -> Le b x /\ ((k < j)%nat -> nlt b x = true))
  end ->
  match argmin_from l (length pre) best with
  | None => Forall (fun o => o = None) (pre ++ l)
  | Some (j, b) => nth_error (pre ++ l) j = Some (Some b) /\ NotNaN b /\
      (forall k x, nth_error (pre ++ l) k = Some (Some x) -> Le b x /\ ((k < j)%nat -> nlt b x = true))
  end.
Proof.
  induction l as [|o t IH]; intros Hn pre best H.
  - rewrite app_nil_r. exact H.
  - inversion Hn as [|? ? Ho Ht]; subst.
    assert (Hlen : S (length pre) = length (pre ++ [o])) by (rewrite app_length; cbn; lia).
    replace (pre ++ o :: t) with ((pre ++ [o]) ++ t) by now rewrite <- app_assoc.
    assert (Hin : forall k v, nth_error (pre ++ [o]) k = Some v ->
               ((k < length pre)%nat /\ nth_error pre k = Some v) \/ (k = length pre /\ v = o)).
    { intros k v Hk. destruct (lt_dec k (length pre)); [left; split; auto; now rewrite nth_error_app1 in Hk|].
      right. rewrite nth_error_app2 in Hk by lia. destruct (k - length pre)%nat as [|m] eqn:E; [|destruct m; discriminate].
      cbn in Hk. injection Hk as <-. split; auto. lia. }
    destruct o as [x|]; cbn [argmin_from]; rewrite Hlen.
    + destruct best as [[j b]|].
      * destruct H as (H1 & H2 & H3). destruct (nlt x b) eqn:E; apply IH; auto.
        -- splits; auto.
           ++ rewrite nth_error_app2, Nat.sub_diag by lia. reflexivity.
           ++ intros k v Hk. destruct (Hin _ _ Hk) as [[Hlt Hk']|[-> Hv]].
              ** destruct (H3 _ _ Hk') as [Hb _]. apply nlt_true in E; auto.
                 assert (NotNaN v) by (eapply le_notnan_r; eauto).
                 assert (Hxb : Le x b) by now apply nle_false_flip.
                 split; [eapply le_trans; eauto|]. intros _. apply nlt_true; auto.
                 destruct (nle v x) eqn:K; auto. exfalso.
                 assert (Le b x) by (eapply le_trans; [exact Hb|exact K]). unfold Le in *. congruence.
              ** injection Hv as ->. split; [now apply le_refl|]. lia.
        -- splits; auto.
           ++ rewrite nth_error_app1; auto. apply nth_error_Some. congruence.
           ++ intros k v Hk. destruct (Hin _ _ Hk) as [[Hlt Hk']|[-> Hv]]; auto.
              injection Hv as ->. apply nlt_false in E; auto. split; auto.
              assert (j < length pre)%nat by (apply nth_error_Some; congruence). lia.
      * apply IH; auto. splits; auto.
        -- rewrite nth_error_app2, Nat.sub_diag by lia. reflexivity.
        -- intros k v Hk. destruct (Hin _ _ Hk) as [[Hlt Hk']|[-> Hv]].
           ++ rewrite Forall_forall in H. apply nth_error_In, H in Hk'. discriminate.
           ++ injection Hv as ->. split; [now apply le_refl|lia].
    + apply IH; auto. destruct best as [[j b]|].
      * destruct H as (H1 & H2 & H3). splits; auto.
        -- rewrite nth_error_app1; auto. apply nth_error_Some. congruence.
        -- intros k v Hk. destruct (Hin _ _ Hk) as [[Hlt Hk']|[-> Hv]]; auto. discriminate.
      * apply Forall_app. split; auto.
Qed.
Lemma argmin_spec (l : list (option F)) : Forall (fun o => match o with Some x => NotNaN x | None => True end) l ->
  match argmin l with
  | None => Forall (fun o => o = None) l
  | Some (j, b) => nth_error l j = Some (Some b) /\ NotNaN b /\
      (forall k x, nth_error l k = Some (Some x) -> Le b x /\ ((k < j)%nat -> nlt b x = true))
  end.
Proof. intro H. apply (argmin_from_spec l H [] None). constructor. Qed.
End Argmin.

Lemma StronglySorted_R (l : list R) : Ascending l <-> StronglySorted Rle l.
Proof.
  split; induction 1 as [|a t Hs IH Ha]; constructor; auto; eapply Forall_impl; try exact Ha; intros; now apply Le_R.
Qed.
Lemma filter_notnan_R (l : list R) : filter (fun x => negb (isnan x)) l = l.
Proof. induction l as [|a t IH]; auto. cbn [filter]. rewrite isnan_R. cbn. now f_equal. Qed.

Lemma quantile90_R (l : list R) : l <> [] -> exists q, quantile90 l = Some q /\ Percentile90 l q.
Proof.
  intro Hne. unfold quantile90. rewrite filter_notnan_R. set (s := np_sort l).
  assert (Hlen : length s = length l) by apply np_sort_length.
  assert (Hpos : (0 < length l)%nat) by (destruct l; cbn; [congruence|lia]).
  set (h := (9 * (Z.of_nat (length s) - 1))%Z). assert (Hh : (0 <= h)%Z) by (unfold h; lia).
  pose proof (Z.div_mod h 10 ltac:(lia)) as Hdm. pose proof (Z.mod_pos_bound h 10 ltac:(lia)) as Hm.
  assert (Hlo : (Z.to_nat (h / 10) < length s)%nat).
  { apply Nat2Z.inj_lt. rewrite Z2Nat.id by (apply Z.div_pos; lia). unfold h in *. lia. }
  destruct (nth_error s (Z.to_nat (h / 10))) as [a|] eqn:Ea; [|apply nth_error_None in Ea; lia].
  eexists. split; [reflexivity|].
  set (b := match nth_error s (S (Z.to_nat (h / 10))) with Some b => b | None => a end).
  exists s, (Z.to_nat (h / 10)), (IZR (h mod 10) / 10)%R, a, b. splits.
  - apply np_sort_perm.
  - apply StronglySorted_R, np_sort_ascending, notnan_R.
  - destruct Hm as [Hm1 _]. apply IZR_le in Hm1. lra.
  - destruct Hm as [_ Hm2]. apply IZR_lt in Hm2. lra.
  - rewrite INR_IZR_INZ, Z2Nat.id by (apply Z.div_pos; lia).
    rewrite <- Hlen, INR_IZR_INZ. assert (IZR h = 9 * (IZR (Z.of_nat (length s)) - 1))%R as E1.
    { unfold h. rewrite mult_IZR, minus_IZR. lra. }
    assert (IZR h = 10 * IZR (h / 10) + IZR (h mod 10))%R as E2.
    { rewrite Hdm at 1. rewrite plus_IZR, mult_IZR. lra. }
    lra.
  - exact Ea.
  - subst b. destruct (nth_error s (S (Z.to_nat (h / 10)))) eqn:Eb; [now left|right].
    split; auto. apply nth_error_None in Eb.
    assert (h / 10 = Z.of_nat (length s) - 1)%Z as Hq.
    { apply Nat2Z.inj_le in Eb. rewrite Nat2Z.inj_succ, Z2Nat.id in Eb by (apply Z.div_pos; lia).
      apply Nat2Z.inj_lt in Hlo. rewrite Z2Nat.id in Hlo by (apply Z.div_pos; lia). lia. }
    rewrite Hq in Hdm. assert (h mod 10 = 0)%Z as -> by (unfold h in *; lia). lra.
  - cbn [nadd nmul nsub ndiv nofZ Num_R]. lra.
Qed.

Lemma filter_split_perm {A} (f : A -> bool) (l : list A) :
  Permutation l (filter f l ++ filter (fun x => negb (f x)) l).
Proof.
  induction l as [|a t IH]; cbn [filter]; auto. destruct (f a); cbn [negb app].
  - now constructor.
  - rewrite IH at 1. apply Permutation_middle.
Qed.
Lemma nlt_R (x y : R) : nlt x y = true <-> (x < y)%R.
Proof. cbn. destruct (Rlt_dec x y); split; auto; discriminate. Qed.
Lemma nlt_R_false (x y : R) : nlt x y = false <-> (y <= x)%R.
Proof. cbn. destruct (Rlt_dec x y); split; try lra; auto; discriminate. Qed.

Lemma masked_mean_R (l : list R) m : l <> [] -> masked_mean l = Some m -> MeanBelowP90 l m.
Proof.
  intros Hne H. unfold masked_mean in H. destruct (quantile90_R l Hne) as (q & Hq & Hp). rewrite Hq in H.
  destruct (filter (fun x => nlt x q) l) as [|a t] eqn:Ef; [discriminate|].
  rewrite isnan_R in H. injection H as <-.
  exists q, (a :: t), (filter (fun x => negb (nlt x q)) l). splits; auto.
  - rewrite <- Ef. apply filter_split_perm.
  - discriminate.
  - rewrite <- Ef. apply Forall_forall. intros x Hx. apply filter_In in Hx as [_ Hx]. now apply nlt_R.
  - apply Forall_forall. intros x Hx. apply filter_In in Hx as [_ Hx]. apply negb_true_iff in Hx. now apply nlt_R_false.
  - apply nmean_R.
Qed.
Lemma masked_mean_none (l : list R) : l <> [] -> masked_mean l = None ->
  exists q, Percentile90 l q /\ Forall (fun x => (q <= x)%R) l.
Proof.
  intros Hne H. unfold masked_mean in H. destruct (quantile90_R l Hne) as (q & Hq & Hp). rewrite Hq in H.
  exists q. split; auto. destruct (filter (fun x => nlt x q) l) as [|a t] eqn:Ef.
  - apply Forall_forall. intros x Hx. apply nlt_R_false. destruct (nlt x q) eqn:E; auto.
    assert (In x []) by (rewrite <- Ef; apply filter_In; auto). contradiction.
  - rewrite isnan_R in H. discriminate.
Qed.
(** The percentile and the below-percentile average are determined by the column. *)
Lemma sorted_perm_eq (a b : list R) : StronglySorted Rle a -> StronglySorted Rle b -> Permutation a b -> a = b.
Proof.
  intros Ha Hb Hp. rewrite <- (np_sort_id a), <- (np_sort_id b).
  - now apply np_sort_perm_R.
  - apply Ascending_NpLe; [apply notnan_R|now apply StronglySorted_R].
  - apply Ascending_NpLe; [apply notnan_R|now apply StronglySorted_R].
Qed.
Lemma nat_frac_unique k k' t t' : (0 <= t < 1)%R -> (0 <= t' < 1)%R -> (INR k + t = INR k' + t')%R -> k = k' /\ t = t'.
Proof.
  intros H H' E. assert (k = k') as ->.
  { rewrite !INR_IZR_INZ in E. apply Nat2Z.inj.
    assert (A : (IZR (Z.of_nat k) < IZR (Z.of_nat k' + 1))%R) by (rewrite plus_IZR; lra).
    assert (B : (IZR (Z.of_nat k') < IZR (Z.of_nat k + 1))%R) by (rewrite plus_IZR; lra).
    apply lt_IZR in A, B. lia. }
  split; auto. lra.
Qed.
Lemma Percentile90_unique l q q' : Percentile90 l q -> Percentile90 l q' -> q = q'.
Proof.
  intros (s & k & t & a & b & P1 & S1 & T1 & E1 & A1 & B1 & Q1) (s' & k' & t' & a' & b' & P2 & S2 & T2 & E2 & A2 & B2 & Q2).
  assert (s' = s) as -> by (apply sorted_perm_eq; auto; rewrite <- P2; auto).
  destruct (nat_frac_unique k k' t t') as [<- <-]; auto; [lra|].
  assert (a' = a) as -> by congruence. destruct B1 as [B1|[-> ->]], B2 as [B2|[? ->]]; subst; try lra.
  assert (b' = b) as -> by congruence. lra.
Qed.

Lemma slice_bound n i : (0 <= n)%Z -> SliceBound n i (py_clip n i).
Proof.
  intro Hn. unfold py_clip. destruct (Z.ltb_spec i 0).
  - destruct (Z_lt_dec i (- n)).
    + replace (Z.max 0 (Z.min n (i + n))) with 0%Z by lia. now apply SBBelow.
    + replace (Z.max 0 (Z.min n (i + n))) with (n + i)%Z by lia. apply SBFromEnd. lia.
  - destruct (Z_lt_dec n i).
    + replace (Z.max 0 (Z.min n i)) with n by lia. now apply SBAbove.
    + replace (Z.max 0 (Z.min n i)) with i by lia. apply SBInside. lia.
Qed.
Lemma slice_bound_unique n i s s' : (0 <= n)%Z -> SliceBound n i s -> SliceBound n i s' -> s = s'.
Proof. intros Hn H1 H2. destruct H1; inversion H2; lia. Qed.

Lemma SS_skipn {A} (R : A -> A -> Prop) l n : StronglySorted R l -> StronglySorted R (skipn n l).
Proof. revert n. induction l as [|a t IH]; intros [|n] H; auto. inversion H; subst. cbn. auto. Qed.
Lemma SS_firstn {A} (R : A -> A -> Prop) l n : StronglySorted R l -> StronglySorted R (firstn n l).
Proof.
  revert n. induction l as [|a t IH]; intros [|n] H; cbn [firstn]; try constructor; inversion H as [|? ? H1 H2]; subst; auto.
  rewrite Forall_forall in *. intros x Hx. apply H2.
  rewrite <- (firstn_skipn n t). apply in_or_app. now left.
Qed.
Lemma np_sort_slice {F} {N : Num F} {L : OrdLaws F N} (v : list F) a b :
  np_sort (py_slice (np_sort v) a b) = py_slice (np_sort v) a b.
Proof. apply np_sort_id. unfold py_slice. apply SS_firstn, SS_skipn, np_sort_sorted. Qed.

Lemma py_get_in {A} (l : list A) i : (0 <= i < Z.of_nat (length l))%Z -> py_get l i = nth_error l (Z.to_nat i).
Proof.
  intro H. unfold py_get. assert ((i <? 0)%Z = false) as -> by (apply Z.ltb_ge; lia).
  assert ((i <? 0)%Z = false) as -> by (apply Z.ltb_ge; lia).
  assert ((Z.of_nat (length l) <=? i)%Z = false) as -> by (apply Z.leb_gt; lia). reflexivity.
Qed.
Lemma py_get_neg {A} (l : list A) i : (- Z.of_nat (length l) <= i < 0)%Z ->
  py_get l i = nth_error l (Z.to_nat (Z.of_nat (length l) + i)).
Proof.
  intro H. unfold py_get. assert ((i <? 0)%Z = true) as -> by (apply Z.ltb_lt; lia).
  assert ((Z.of_nat (length l) + i <? 0)%Z = false) as -> by (apply Z.ltb_ge; lia).
  assert ((Z.of_nat (length l) <=? Z.of_nat (length l) + i)%Z = false) as -> by (apply Z.leb_gt; lia). reflexivity.
Qed.
Lemma py_get_low {A} (l : list A) i : (i < - Z.of_nat (length l))%Z -> py_get l i = None.
Proof.
  intro H. unfold py_get. assert ((i <? 0)%Z = true) as -> by (apply Z.ltb_lt; lia).
  assert ((Z.of_nat (length l) + i <? 0)%Z = true) as -> by (apply Z.ltb_lt; lia). reflexivity.
Qed.

Section Rows.
Context {F U : Type} {N : Num F} {L : OrdLaws F N}.
Variable hbos : nat -> list F -> result (list bool).
Variable fit_all : list F -> result U.
Hypothesis hbos_len : forall id l lab, hbos id l = Ok lab -> length lab = length l.

(** Where a recorded row sits in a spectrum of distinct values. *)
Lemma row_located values max_trim max_iters its k t :
  Forall NotNaN values -> Distinct values ->
  trim_iters hbos fit_all values max_trim max_iters = Ok its -> nth_error its k = Some t ->
  exists p s, ti_origs t = p ++ ti_eigs t ++ s /\ ti_eigs t <> [] /\
    trim_indices t = Ok (Z.of_nat (length p), Z.of_nat (length p) + Z.of_nat (length (ti_eigs t)) - 1)%Z /\
    find_first neq (ti_origs t) (match ti_eigs t with a :: _ => a | [] => n0 end) = Z.of_nat (length p) /\
    (exists b, last_opt (ti_eigs t) = Some b /\
     Z.of_nat (length (ti_origs t)) - 1 - find_last neq (ti_origs t) b = Z.of_nat (length s))%Z.
Proof.
  intros Hn Hd H Hk. destruct (row_ok hbos fit_all hbos_len _ _ _ _ H _ _ Hk) as (_ & H2 & (_ & _ & H3) & (p & s & H4) & _).
  assert (Hn' : Forall NotNaN (np_sort values)) by now apply Forall_np_sort.
  assert (Hd' : Distinct (np_sort values)) by (eapply Distinct_perm; [apply np_sort_perm|auto]).
  rewrite H4 in Hn', Hd'.
  exists p, s. rewrite H2, H4.
  destruct (head_opt (ti_eigs t)) as [a|] eqn:Ea.
  2:{ unfold head_opt in Ea. apply nth_error_None in Ea. destruct (ti_eigs t); [congruence|cbn in Ea; lia]. }
  destruct (last_opt (ti_eigs t)) as [b|] eqn:Eb.
  2:{ unfold last_opt in Eb. apply nth_error_None in Eb. destruct (ti_eigs t); [congruence|cbn in Eb; lia]. }
  splits; auto.
  - unfold trim_indices. rewrite py_get_0, py_get_m1, Ea, Eb, H2, H4.
    now rewrite (locate_first p (ti_eigs t) s a Hn' Hd' Ea), (locate_last p (ti_eigs t) s b Hn' Hd' Eb).
  - destruct (ti_eigs t) as [|a' e] eqn:Ee; [congruence|]. injection Ea as ->.
    apply (locate_first p (a :: e) s a Hn' Hd'). reflexivity.
  - exists b. split; auto. rewrite (locate_last p (ti_eigs t) s b Hn' Hd' Eb). rewrite !app_length. lia.
Qed.
End Rows.
