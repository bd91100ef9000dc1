(** Property C108: the rigidity measures how far the staircase is from a straight line; evenly spaced levels. *)
From Coq Require Import List ZArith Bool Arith Lia Reals Lra QArith Sorting.Permutation.
From Verif Require Import Base S_Order S_EigVals S_Trim M_Step M_Quad M_Loops S_Quad S_Loops P_Order P_Step P_EigVals P_TrimStat P_Quad P_Ols P_Loops P_Delta P_Invariance T_Loops T_Invariance.
Import ListNotations.
Local Open Scope R_scope.
Local Notation length := List.length.

(** ** Simpson's weights on a uniform grid are at most 4/3 of the step *)
Lemma Rsum_firstn_le v n : Forall (fun t => 0 <= t) v -> Rsum (firstn n v) <= Rsum v.
Proof.
  intros H. revert n. induction H as [|a v Ha _ IH]; intros [|n]; cbn [firstn]; rewrite ?Rsum_cons; [cbn; lra|cbn; lra| |specialize (IH n); lra].
  specialize (IH 0%nat). cbn in *. lra.
Qed.
Lemma simp_le s g v : 0 < s -> Uniform s g -> length v = length g -> Forall (fun t => 0 <= t) v -> forall n, (2 * n < length g)%nat ->
  simp g v n <= s * (4 / 3) * Rsum (firstn (2 * n) v) + s / 3 * nth (2 * n) v 0.
Proof.
  intros Hs Hg Hl Hv n. induction n as [|n IH]; intros H.
  - unfold simp. cbn [seq fold_left]. change (2 * 0)%nat with 0%nat. cbn [firstn Rsum fold_right]. pose proof (nth_nonneg v 0 Hv).
    assert (0 <= s / 3) by lra. nra.
  - rewrite simp_S. specialize (IH ltac:(lia)). replace (2 * n + 1)%nat with (S (2 * n)) by lia. rewrite (sp_uniform s) by (auto; lia).
    replace (2 * S n)%nat with (S (S (2 * n))) by lia. rewrite !Rsum_nth_S by lia.
    pose proof (nth_nonneg v (2*n) Hv). pose proof (nth_nonneg v (S (2*n)) Hv). pose proof (nth_nonneg v (S (S (2*n))) Hv). nra.
Qed.
Lemma simpson_le s g v : 0 < s -> Uniform s g -> (3 <= length g)%nat -> length v = length g -> Forall (fun t => 0 <= t) v ->
  int_simps_nonunif g v <= s * (4 / 3) * Rsum v.
Proof.
  intros Hs Hg Hl Hv Hp. set (n := (length g - 1)%nat). rewrite (simpson_split g _ n) by lia.
  destruct (half_cases n) as [(E & ->)|(E & ->)].
  - pose proof (simp_le s g v Hs Hg Hv Hp (n/2) ltac:(lia)) as B. rewrite <- E in B.
    assert (R : Rsum (firstn n v) + nth n v 0 <= Rsum v) by (rewrite <- Rsum_nth_S by lia; now apply Rsum_firstn_le).
    pose proof (nth_nonneg v n Hp). nra.
  - assert (E3 : exists k, (n / 2 = S k)%nat) by (exists (n / 2 - 1)%nat; lia). destruct E3 as (k & E3). rewrite E3.
    pose proof (simp_le s g v Hs Hg Hv Hp (S k) ltac:(lia)) as B. replace (2 * S k)%nat with (S (S (2 * k))) in B by lia.
    replace n with (S (S (S (2 * k)))) by lia. rewrite (corr_uniform s) by (auto; lia).
    assert (R : Rsum (firstn (S (S (2 * k))) v) + nth (S (S (2 * k))) v 0 + nth (S (S (S (2 * k)))) v 0 <= Rsum v)
      by (rewrite <- !Rsum_nth_S by lia; now apply Rsum_firstn_le).
    pose proof (nth_nonneg v (S (2*k)) Hp). pose proof (nth_nonneg v (S (S (2*k))) Hp). pose proof (nth_nonneg v (S (S (S (2*k)))) Hp).
    assert (0 <= s * nth (S (2*k)) v 0) by nra. assert (0 <= s * nth (S (S (2*k))) v 0) by nra. assert (0 <= s * nth (S (S (S (2*k)))) v 0) by nra.
    assert (s * (Rsum (firstn (S (S (2 * k))) v) + nth (S (S (2 * k))) v 0 + nth (S (S (S (2 * k)))) v 0) <= s * Rsum v) by (apply Rmult_le_compat_l; lra).
    lra.
Qed.

(** A value sampled for the rigidity is at most 4/3 n / (n - 1) times the mean squared distance to any line. *)
Lemma d3_mean_square simpson n L u c d : 0 < L -> (3 <= n)%nat -> d3_sample simpson n L u c = Done d ->
  let g := EvenGrid (c - L / 2) (c + L / 2) n in
  exists counts, step_function_fast u g = Done counts /\
    forall a b, d <= 4 / 3 * (Rsum (SqResiduals g (map IZR counts) a b) / (INR n - 1)).
Proof.
  intros HL Hn H. apply d3_inv in H; [|lia]. destruct H as (counts & Hc & ->). set (g := EvenGrid _ _ _) in *. cbv zeta. exists counts. split; [exact Hc|].
  intros a b. destruct (step_nonempty _ _ _ Hc) as (Hu & Hg). pose proof (step_length _ _ _ Hu Hg Hc) as Hl.
  pose proof (step_pos c L n HL ltac:(lia)) as Hs. pose proof (even_uniform (c - L/2) (c + L/2) n ltac:(lia)) as U. fold g in U.
  set (st := map IZR counts). assert (Hst : length st = length g) by (unfold st; now rewrite map_length).
  assert (Hlg : (3 <= length g)%nat) by (unfold g; rewrite even_length; lia).
  set (s := (c + L / 2 - (c - L / 2)) / (INR n - 1)) in *. set (w := SqResiduals g st (slope g st) _).
  assert (B : (if simpson then int_simps_nonunif g w else integrate_fast g w) <= s * (4 / 3) * Rsum w).
  { destruct simpson; [apply simpson_le; auto; [now apply sqres_length|apply sqres_nonneg]|].
    destruct (trap_sum_bounds s g w Hs U (sqres_length _ _ _ _ Hst) ltac:(lia) (sqres_nonneg _ _ _ _)) as (B & _).
    assert (0 <= Rsum w) by (exact (Rsum_firstn_le w 0 (sqres_nonneg _ _ _ _))). nra. }
  pose proof (ols_minimal g st Hg (eq_sym Hst) a b) as O. change (Rsum w <= Rsum (SqResiduals g st a b)) in O.
  assert (Hn1 : 0 < INR n - 1) by (apply le_INR in Hn; cbn in Hn; lra).
  apply Rle_trans with (s * (4 / 3) * Rsum (SqResiduals g st a b) / L).
  - apply Rmult_le_compat_r; [left; now apply Rinv_0_lt_compat|]. eapply Rle_trans; [exact B|]. apply Rmult_le_compat_l; [lra|exact O].
  - right. unfold s. field. lra.
Qed.

Lemma sqres_bound g st a b e : (forall x y, In (x, y) (combine g st) -> Rabs (y - (a * x + b)) <= e) ->
  Rsum (SqResiduals g st a b) <= INR (length (combine g st)) * (e * e).
Proof.
  intros H. unfold SqResiduals, Residuals. rewrite map_map. induction (combine g st) as [|(x, y) l IH]; [cbn; lra|].
  cbn [map]. rewrite Rsum_cons. cbn [length fst snd]. rewrite S_INR. specialize (IH ltac:(intros; apply H; now right)).
  specialize (H x y ltac:(now left)). set (r := y - (a * x + b)) in *. pose proof (Rle_abs r). pose proof (Rle_abs (- r)) as Q. rewrite Rabs_Ropp in Q. assert (r * r <= e * e) by nra. lra.
Qed.
Lemma combine_map_self {A B} (f : A -> B) l x y : In (x, y) (combine l (map f l)) -> In x l /\ y = f x.
Proof. induction l as [|z l IH]; cbn; [tauto|]. intros [E|H]; [injection E as <- <-; auto|]. destruct (IH H). auto. Qed.
Lemma even_grid_in lo hi n x : (2 <= n)%nat -> lo <= hi -> In x (EvenGrid lo hi n) -> lo <= x <= hi.
Proof.
  intros Hn H Hx. apply in_map_iff in Hx as (i & <- & Hi). apply in_seq in Hi. apply le_INR in Hn. cbn in Hn. assert (INR (S i) <= INR n) by (apply le_INR; lia).
  rewrite S_INR in *. pose proof (pos_INR i). assert (P : 0 <= (hi - lo) / (INR n - 1)) by (apply Rmult_le_pos; [lra|left; apply Rinv_0_lt_compat; lra]).
  assert (E : (INR n - 1) * ((hi - lo) / (INR n - 1)) = hi - lo) by (field; lra). split; nra.
Qed.

(** C108. If on the window the number of levels up to x stays within [e] of some line, the value sampled there is at most
    4/3 n / (n - 1) e^2, with either quadrature rule. *)
Theorem C108_near_line : forall simpson n L (u : list R) c d a b e, 0 < L -> (3 <= n)%nat -> Ascending u ->
  (forall x, c - L / 2 <= x <= c + L / 2 -> Rabs (IZR (CountLe u x) - (a * x + b)) <= e) ->
  d3_sample simpson n L u c = Done d -> 0 <= d <= 4 / 3 * (INR n / (INR n - 1)) * (e * e).
Proof.
  intros simpson n L u c d a b e HL Hn Hu Hline H. split; [exact (d3_nonneg _ _ _ _ _ _ HL Hn H)|].
  destruct (d3_mean_square simpson n L u c d HL Hn H) as (counts & Hc & Hd). set (g := EvenGrid _ _ _) in *.
  assert (Hn1 : 0 < INR n - 1) by (apply le_INR in Hn; cbn in Hn; lra). destruct (step_nonempty _ _ _ Hc) as (Hue & Hge).
  assert (X : forall S, S <= INR n * (e * e) -> 4 / 3 * (S / (INR n - 1)) <= 4 / 3 * (INR n / (INR n - 1)) * (e * e)).
  { intros S HS. replace (4 / 3 * (INR n / (INR n - 1)) * (e * e)) with (4 / 3 * (INR n * (e * e) / (INR n - 1))) by (field; lra).
    apply Rmult_le_compat_l; [lra|]. apply Rmult_le_compat_r; [left; now apply Rinv_0_lt_compat|exact HS]. }
  destruct u as [|e0 u]; [congruence|]. destruct (last_opt g) as [xl|] eqn:El.
  2:{ unfold last_opt in El. apply nth_error_None in El. destruct g; [congruence|cbn in El; lia]. }
  assert (Hg : Ascending g).
  { apply StronglySorted_R. unfold g, EvenGrid. clear - HL Hn1. assert (P : 0 < (c + L / 2 - (c - L / 2)) / (INR n - 1)) by (apply Rdiv_lt_0_compat; lra).
    set (s := (c + L / 2 - (c - L / 2)) / (INR n - 1)) in *. generalize 0%nat. generalize n at 1. induction n0 as [|m IH]; intros k; cbn [seq map]; constructor; [apply IH|].
    apply Forall_forall. intros x Hx. apply in_map_iff in Hx as (i & <- & Hi). apply in_seq in Hi. assert (INR k <= INR i) by (apply le_INR; lia). nra. }
  pose proof (step_fast_sorted (e0 :: u) g e0 xl (notnan_R _) (notnan_R _) Hu Hg eq_refl El) as E. rewrite Hc in E.
  assert (E2 : counts = if neq xl e0 then repeat 0%Z (length g) else map (CountLe (e0 :: u)) g) by congruence. clear E.
  destruct (neq xl e0).
  - subst counts. eapply Rle_trans; [apply (Hd 0 0)|]. apply X. eapply Rle_trans; [apply (sqres_bound _ _ _ _ 0)|].
    + intros x y Hxy. apply in_combine_r in Hxy. apply in_map_iff in Hxy as (z & <- & Hz). apply repeat_spec in Hz. subst z. rewrite Rabs_right; lra.
    + pose proof (pos_INR n). pose proof (Rle_0_sqr e) as Q. unfold Rsqr in Q. nra.
  - subst counts. eapply Rle_trans; [apply (Hd a b)|]. apply X. eapply Rle_trans; [apply (sqres_bound _ _ _ _ e)|].
    + intros x y Hxy. rewrite map_map in Hxy. apply combine_map_self in Hxy as (Hx & ->). apply Hline. apply (even_grid_in _ _ n); [lia|lra|exact Hx].
    + rewrite combine_length, !map_length, Nat.min_id. unfold g. rewrite even_length. lra.
Qed.
Print Assumptions C108_near_line.

Lemma Rmean_between l lo hi : l <> [] -> Forall (fun x => lo <= x <= hi) l -> lo <= Rmean l <= hi.
Proof.
  intros Hne H. rewrite Rmean_INR. assert (P : 0 < INR (length l)) by (apply lt_0_INR; destruct l; [congruence|cbn; lia]).
  assert (S : INR (length l) * lo <= Rsum l <= INR (length l) * hi).
  { clear - H. induction H as [|x l Hx _ IH]; [cbn; lra|]. cbn [length]. rewrite Rsum_cons, S_INR. lra. }
  split; [apply Rmult_le_reg_r with (INR (length l))|apply Rmult_le_reg_r with (INR (length l))]; try exact P;
    unfold Rdiv; rewrite Rmult_assoc, Rinv_l by lra; lra.
Qed.
Lemma runmean_between v j lo hi : (1 <= j)%nat -> (forall i, lo <= v i <= hi) -> lo <= runmean v j <= hi.
Proof.
  intros Hj H. unfold runmean. apply Rmean_between; [destruct j; [lia|discriminate]|]. apply Forall_forall. intros x Hx.
  apply in_map_iff in Hx as (i & <- & _). apply H.
Qed.

(** C108. The returned rigidity lies between the least and the greatest of the sampled values once the buffer is full
    (more than 1000 iterations), and between 0 and the greatest in any case. *)
Theorem C108_between : forall (u : list R) L grid mx mn tol simpson draws v d conv k lo hi,
  (forall i, delta_sample simpson grid L u draws i = Done (v i)) -> (forall i, lo <= v i <= hi) -> 0 <= lo ->
  delta_L u L grid mx mn tol simpson draws = Done (d, conv, k) -> 0 <= d <= hi /\ ((1000 < k)%Z -> lo <= d).
Proof.
  intros u L grid mx mn tol simpson draws v d conv k lo hi Hv Hb Hlo H. unfold delta_L in H.
  destruct (delta_run_done BUFFER v _ mx mn tol Hv) as (m & E & H1 & _). rewrite E in H.
  assert (Ed : d = nmean (d_buf (d_after BUFFER v m))) by congruence. injection H as _ _ Ek. rewrite d_after_k in Ek. subst k.
  rewrite nmean_R in Ed. subst d.
  pose proof (d_buf_perm BUFFER v ltac:(unfold BUFFER; lia) m H1) as P.
  assert (Hne : d_buf (d_after BUFFER v m) <> []).
  { intros E0. apply (f_equal (@length R)) in E0. rewrite d_buf_length in E0 by (unfold BUFFER; lia). unfold BUFFER in E0. cbn [length] in E0. lia. }
  assert (Hh : 0 <= hi) by (specialize (Hb 0%nat); lra).
  assert (A : Forall (fun x => 0 <= x <= hi) (d_buf (d_after BUFFER v m))).
  { apply Forall_forall. intros x Hx. apply (Permutation_in _ P) in Hx. apply in_map_iff in Hx as (t & <- & _). unfold slot.
    destruct (1 <? _)%Z eqn:E1; [|destruct (_ =? 0)%Z; [specialize (Hb 0%nat); lra|lra]]. apply Z.ltb_lt in E1.
    pose proof (runmean_between v (Z.to_nat (Z.of_nat m + 1 - Z.of_nat t)) lo hi ltac:(lia) Hb). lra. }
  split; [now apply Rmean_between|]. intros Hk.
  assert (B : Forall (fun x => lo <= x <= hi) (d_buf (d_after BUFFER v m))).
  { apply Forall_forall. intros x Hx. apply (Permutation_in _ P) in Hx. apply in_map_iff in Hx as (t & <- & Ht). apply in_seq in Ht. unfold slot.
    unfold BUFFER in Ht. rewrite Nat.add_0_l in Ht. destruct (Z.ltb_spec 1 (Z.of_nat m + 1 - Z.of_nat t)) as [E1|E1]; [|lia].
    apply runmean_between; [lia|exact Hb]. }
  now apply Rmean_between in B.
Qed.
Print Assumptions C108_between.

Lemma fence_le a n x : a <= x -> x <= a + (INR n - 1) -> IZR (CountLe (Fence a n) x) - 1 <= x - a < IZR (CountLe (Fence a n) x).
Proof.
  intros Hl Hh. destruct (base_Int_part (x - a)) as (A & B). set (z := Int_part (x - a)) in *.
  assert (0 <= z)%Z by (assert (-1 < z)%Z; [apply lt_IZR; lra|lia]).
  enough (E : CountLe (Fence a n) x = (z + 1)%Z) by (rewrite E, plus_IZR; lra).
  assert (Hz : (Z.to_nat z < n)%nat).
  { apply INR_lt. rewrite INR_IZR_INZ, Z2Nat.id by lia. lra. }
  assert (G : forall m, CountLe (Fence a m) x = Z.of_nat (Nat.min m (S (Z.to_nat z)))).
  { induction m as [|m IH]; [reflexivity|]. unfold Fence in *. rewrite seq_S, map_app, CountLe_filter, filter_app, app_length, Nat2Z.inj_add, <- CountLe_filter, IH.
    cbn [plus map filter]. change (nle (a + INR m) x) with (if Rle_dec (a + INR m) x then true else false).
    destruct (Rle_dec (a + INR m) x) as [R|R]; cbn [length].
    - assert (Z.of_nat m < z + 1)%Z by (apply lt_IZR; rewrite plus_IZR, <- INR_IZR_INZ; lra). lia.
    - assert (z < Z.of_nat m)%Z by (apply lt_IZR; rewrite <- INR_IZR_INZ; lra). lia. }
  rewrite G. lia.
Qed.

(** C108. Evenly spaced levels: as long as no window overruns the ends of the spectrum, the rigidity is at most
    n / (3 (n - 1)) for a grid of n points, whatever L. *)
Theorem C108_evenly_spaced : forall a N simpson n L mx mn tol draws, 0 < L -> (3 <= n)%nat -> (1 <= N)%nat ->
  (forall j, a <= a + (INR N - 1) * draws j - L / 2 /\ a + (INR N - 1) * draws j + L / 2 <= a + (INR N - 1)) ->
  exists d conv k, delta_L (Fence a N) L n mx mn tol simpson draws = Done (d, conv, k) /\ 0 <= d <= INR n / (3 * (INR n - 1)).
Proof.
  intros a N simpson n L mx mn tol draws HL Hn HN Hd. assert (Hne : Fence a N <> []) by (destruct N; [lia|discriminate]).
  destruct (delta_sample_R simpson n L (Fence a N) draws Hne ltac:(lia)) as (v & Hv).
  destruct (C39_iterations (Fence a N) L n mx mn tol simpson draws v Hv) as (d & conv & k & E & _). exists d, conv, k. split; [exact E|].
  refine (proj1 (C108_between _ L n mx mn tol simpson draws v d conv k 0 _ Hv _ (Rle_refl 0) E)). intros i. specialize (Hv i). unfold delta_sample in Hv.
  assert (Hh : head_opt (Fence a N) = Some a). { destruct N; [lia|]. cbn. f_equal. lra. }
  assert (Hla : last_opt (Fence a N) = Some (a + (INR N - 1))).
  { unfold last_opt, Fence. rewrite map_length, seq_length, nth_error_map, nth_error_nth' with (d := 0%nat) by (rewrite seq_length; lia).
    rewrite seq_nth by lia. cbn [option_map plus]. rewrite minus_INR by lia. cbn. f_equal. }
  rewrite Hh, Hla in Hv. unfold uniform in Hv. cbn [nadd nsub nmul Num_R] in Hv. replace (a + (INR N - 1) - a) with (INR N - 1) in Hv by ring.
  specialize (Hd i). set (c := a + (INR N - 1) * draws i) in *.
  assert (Hn1 : 0 < INR n - 1) by (apply le_INR in Hn; cbn in Hn; lra).
  replace (INR n / (3 * (INR n - 1))) with (4 / 3 * (INR n / (INR n - 1)) * (1 / 2 * (1 / 2))) by (field; lra).
  apply (C108_near_line simpson n L (Fence a N) c (v i) 1 (1 / 2 - a)); auto.
  - apply StronglySorted_R. unfold Fence. generalize 0%nat. clear. induction N as [|m IH]; intros k; cbn [seq map]; constructor; [apply IH|].
    apply Forall_forall. intros x Hx. apply in_map_iff in Hx as (i & <- & Hi). apply in_seq in Hi. assert (INR k <= INR i) by (apply le_INR; lia). lra.
  - intros x Hx. pose proof (fence_le a N x ltac:(lra) ltac:(lra)). apply Rabs_le. lra.
Qed.
Print Assumptions C108_evenly_spaced.

(** C108 is false of the code in general: windows near the ends are partly empty.  41 levels one apart, L = 20, the default 100
    grid points: the value sampled in the middle is below 1/8, the one about the lowest level is above 2 (the bound is 100/297). *)
Theorem C108_refuted : let u := map (fun i => inject_Z (Z.of_nat i)) (seq 0 41) in
  exists d d', d3_sample true 100 20%Q u 20%Q = Done d /\ d3_sample true 100 20%Q u 0%Q = Done d' /\ (d < 1 # 8)%Q /\ (2 < d')%Q.
Proof. do 2 eexists. split; [vm_compute; reflexivity|]. split; [vm_compute; reflexivity|]. split; reflexivity. Qed.
Print Assumptions C108_refuted.
(** Nine levels, L = 4, ten grid points, windows inside: values below 10/27; three iterations fill three of the 1000 slots. *)
Example C108_case : let u := map inject_Z [0; 1; 2; 3; 4; 5; 6; 7; 8]%Z in
  d3_sample true 10 4%Q u (17 # 4)%Q = Done (7241 # 108900)%Q /\ d3_sample false 10 4%Q u (17 # 4)%Q = Done (6382 # 81675)%Q /\
  delta_L u 4%Q 10 3 100 0%Q true (fun j => match j with O => 1 # 2 | S O => 1 # 3 | _ => 5 # 8 end)%Q = Done ((633091 # 2940300000)%Q, false, 3%Z).
Proof. vm_compute. repeat split; reflexivity. Qed.
