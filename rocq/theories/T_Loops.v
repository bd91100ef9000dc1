(** Properties C35-C37, C39, C40, C44, C45: the sampling loops for level variance and rigidity, the parallel loops over L and
    the automatic iteration limit. *)
From Coq Require Import List ZArith Bool Arith Lia Reals Lra QArith Sorting.Permutation.
From Verif Require Import Base S_Order S_EigVals S_Trim M_Step M_Quad M_Loops S_Quad S_Loops P_Order P_Step P_EigVals P_TrimStat P_Quad P_Ols P_Loops P_Delta.
Import ListNotations.
Local Open Scope R_scope.
Local Notation length := List.length.

(** The number of values within L/2 of the j-th random centre, [lo] and [hi] being the ends of the spectrum. *)
Definition WindowCount (u : list R) (lo hi L : R) (draws : nat -> R) (j : nat) : R :=
  let c := lo + (hi - lo) * draws j in INR (CountIn u (c - L / 2) (c + L / 2)).

(** C35. For every stream of random numbers: the returned value is the population variance of the counts 1..k (the count of
    draw 0 does not enter), so it is non-negative, at most (n/2)^2, and 0 iff the counts agree. *)
Theorem C35_population_variance : forall (u : list R) L mx tol mn draws, u <> [] ->
  exists lo hi s conv k, IsMin u lo /\ IsMax u hi /\
    sigma_L u L mx tol mn draws = Ok (Done (s, conv, Z.of_nat k)) /\ (1 <= k)%nat /\
    let n := WindowCount u lo hi L draws in
    s = PopVar (map n (seq 1 k)) /\ 0 <= s <= (INR (length u) / 2) * (INR (length u) / 2) /\
    (s = 0 <-> forall i j, (1 <= i <= k)%nat -> (1 <= j <= k)%nat -> n i = n j).
Proof.
  intros u L mx tol mn draws Hu. destruct u as [|h t]; [congruence|]. destruct (sigma_L_run h t L mx tol mn draws) as (k & H & Hk & _).
  exists (nmin h t), (nmax h t). do 2 eexists. exists k. split; [apply nmin_IsMin|]. split; [apply nmax_IsMax|]. split; [exact H|]. split; [exact Hk|].
  cbv zeta. rewrite sigma_PopVar by exact Hk. set (n := WindowCount _ _ _ _ _).
  change (map (cnt (h :: t) L (fun i => uniform (nmin h t) (nmax h t) (draws i))) (seq 1 k)) with (map n (seq 1 k)).
  split; [reflexivity|]. split; [split; [apply PopVar_nonneg|apply PopVar_bound]|].
  - apply Forall_forall. intros x Hx. apply in_map_iff in Hx as (j & <- & _). unfold n, WindowCount. cbv zeta. split; [apply pos_INR|apply le_INR, CountIn_le].
  - rewrite PopVar_zero by (destruct k; [lia|discriminate]). split.
    + intros G i j Hi Hj. apply G; apply in_map; apply in_seq; lia.
    + intros G x y Hx Hy. apply in_map_iff in Hx as (i & <- & Hi). apply in_map_iff in Hy as (j & <- & Hj). apply in_seq in Hi, Hj. apply G; lia.
Qed.
Print Assumptions C35_population_variance.
(** Two draws, counts 1 and 2 after the initial one: variance 1/4. *)
Example C35_case : sigma_L [0; 1; 3]%Q 2%Q 2%Z (1 # 100)%Q 0%Z (fun j => match j with O => 1 | S O => 1 | _ => 1 # 3 end)%Q = Ok (Done ((1 # 4)%Q, false, 2%Z)).
Proof. vm_compute. reflexivity. Qed.

(** C36. For every number type (binary64 included): the loop stops within max(1, max_iters) passes, and stopping early is
    only possible with the flag set, at a multiple of 500 above min_iters. *)
Theorem C36_iterations : forall {F} {N : Num F} (u : list F) L mx tol mn draws, u <> [] ->
  exists s conv k, sigma_L u L mx tol mn draws = Ok (Done (s, conv, k)) /\ (1 <= k <= Z.max 1 mx)%Z /\
    ((k < mx)%Z -> conv = true /\ (k mod 500 = 0)%Z /\ (mn < k)%Z).
Proof.
  intros F N u L mx tol mn draws Hu. destruct u as [|h t]; [congruence|]. destruct (sigma_L_run h t L mx tol mn draws) as (k & H & Hk & H1 & H2 & _).
  do 2 eexists. exists (Z.of_nat k). split; [exact H|]. split; [lia|]. intros Hlt. destruct (H2 Hlt) as (A & B & C). auto.
Qed.
Print Assumptions C36_iterations.
(** C36. The flag says that the running variances after k, k-1, ..., k-999 draws differ pairwise by less than tol.  For
    k < 1000 the missing ones are zeros: [PopVar []] is 0. *)
Theorem C36_flag : forall (u : list R) L mx tol mn draws lo hi s conv k, u <> [] -> IsMin u lo -> IsMax u hi ->
  sigma_L u L mx tol mn draws = Ok (Done (s, conv, Z.of_nat k)) ->
  let V j := PopVar (map (WindowCount u lo hi L draws) (seq 1 j)) in
  conv = true <-> forall i j, (i < 1000)%nat -> (j < 1000)%nat -> Rabs (V (k - i)%nat - V (k - j)%nat) < tol.
Proof.
  intros u L mx tol mn draws lo hi s conv k Hu Hlo Hhi H V. destruct u as [|h t]; [congruence|].
  destruct (sigma_L_run h t L mx tol mn draws) as (k' & H' & Hk & _). rewrite H' in H. injection H as <- <- E. apply Nat2Z.inj in E as ->.
  assert (E1 : nmin h t = lo).
  { destruct (nmin_IsMin h t) as (A & B). destruct Hlo as (C & D). rewrite Forall_forall in B, D. specialize (B _ C). specialize (D _ A). lra. }
  assert (E2 : nmax h t = hi).
  { destruct (nmax_IsMax h t) as (A & B). destruct Hhi as (C & D). rewrite Forall_forall in B, D. specialize (B _ C). specialize (D _ A). lra. }
  rewrite E1, E2. set (c := fun i => uniform lo hi (draws i)). pose proof (s_buf_perm BUFFER (h :: t) L c k eq_refl) as P.
  assert (W : forall i, running (h :: t) L c (Z.of_nat k - Z.of_nat i) = V (k - i)%nat).
  { intros i. unfold running. destruct (Z.ltb_spec 0 (Z.of_nat k - Z.of_nat i)).
    - unfold V. replace (Z.to_nat (Z.of_nat k - Z.of_nat i)) with (k - i)%nat by lia. reflexivity.
    - replace (k - i)%nat with 0%nat by lia. unfold V, PopVar. cbn. unfold Rdiv. now rewrite Rmult_0_l. }
  rewrite spread_R.
  2:{ intros E. change (s_buf (s_after BUFFER (h :: t) L c k) = []) in E. rewrite E in P. apply Permutation_length in P. rewrite map_length, seq_length in P. discriminate. }
  change (Z.to_nat BUFFER) with 1000%nat in P. split.
  - intros G i j Hi Hj. rewrite <- !W. apply G; (eapply Permutation_in; [apply Permutation_sym, P|]);
      (apply in_map_iff; eexists; split; [reflexivity|apply in_seq; lia]).
  - intros G x y Hx Hy. eapply Permutation_in in Hx; [|exact P]. eapply Permutation_in in Hy; [|exact P].
    apply in_map_iff in Hx as (i & <- & Hi). apply in_map_iff in Hy as (j & <- & Hj). apply in_seq in Hi, Hj. rewrite !W. apply G; lia.
Qed.
Print Assumptions C36_flag.
(** Binary64 run on a one-point spectrum: stops at the first multiple of 500 above min_iters, or at the limit. *)
Example C36_case : let z := b64_ofZ 0 in
  sigma_L [z] (b64_ofZ 2) 2000 (b64_ofZ 1) 100 (fun _ => z) = Ok (Done (z, true, 500%Z)) /\
  sigma_L [z] (b64_ofZ 2) 30 (b64_ofZ 0) 100 (fun _ => z) = Ok (Done (z, false, 30%Z)).
Proof. split; vm_compute; reflexivity. Qed.

(** Over the reals: one value, tolerance 1; the run converges, and the flag says that its running variances agree to within 1. *)
Example C36_flag_case : IsMin [0] 0 /\ IsMax [0] 0 /\
  exists s k, sigma_L [0] 2 2000 1 100 (fun _ => 0) = Ok (Done (s, true, Z.of_nat k)) /\
    forall i j, (i < 1000)%nat -> (j < 1000)%nat ->
      Rabs (PopVar (map (WindowCount [0] 0 0 2 (fun _ => 0)) (seq 1 (k - i))) - PopVar (map (WindowCount [0] 0 0 2 (fun _ => 0)) (seq 1 (k - j)))) < 1.
Proof.
  assert (IsMin [0] 0) as Hlo by (split; [now left|repeat constructor; lra]). assert (IsMax [0] 0) as Hhi by (split; [now left|repeat constructor; lra]).
  split; [exact Hlo|]. split; [exact Hhi|].
  destruct (C36_iterations [0] 2 2000 1 100 (fun _ => 0) ltac:(discriminate)) as (s & conv & k & H & Hk & _).
  replace k with (Z.of_nat (Z.to_nat k)) in H by lia. pose proof (C36_flag [0] 2 2000 1 100 (fun _ => 0) 0 0 s conv (Z.to_nat k) ltac:(discriminate) Hlo Hhi H) as C.
  cbv zeta in C.
  assert (forall m, PopVar (map (WindowCount [0] 0 0 2 (fun _ => 0)) (seq 1 m)) = 0) as Z0.
  { intros [|m]; [unfold PopVar; cbn; unfold Rdiv; ring|]. apply PopVar_zero; [discriminate|]. intros x y Hx Hy.
    apply in_map_iff in Hx as (i & <- & _). apply in_map_iff in Hy as (j & <- & _). reflexivity. }
  assert (conv = true) as -> by (apply C; intros; rewrite !Z0, Rminus_diag_eq, Rabs_R0 by reflexivity; lra).
  exists s, (Z.to_nat k). split; [exact H|]. now apply C.
Qed.

(** C37 is false of the code: [level_variance] asked for at least 700 of at most 900 iterations stops after 500 (binary64);
    the argument has no influence at all. *)
Theorem C37_min_iters_refuted :
  (exists (values L : list b64) tol draws0 draws s conv k, level_variance values L tol 900 700 draws0 draws = Ok [(s, conv, k)] /\ (k < 700)%Z) /\
  forall {F} {N : Num F} (values L : list F) tol mx mn mn' draws0 draws,
    level_variance values L tol mx mn draws0 draws = level_variance values L tol mx mn' draws0 draws.
Proof.
  split; [|reflexivity]. exists [b64_ofZ 0], [b64_ofZ 2], (b64_ofZ 1), (fun _ => b64_ofZ 0), (fun _ _ => b64_ofZ 0). do 2 eexists. exists 500%Z.
  split; [vm_compute; reflexivity|lia].
Qed.
Print Assumptions C37_min_iters_refuted.
(** C37, what does hold: the minimum used is always 100. *)
Theorem C37_minimum_100 : forall {F} {N : Num F} (values L : list F) tol mx mn draws0 draws rs s conv k,
  (0 < mx)%Z -> values <> [] -> level_variance values L tol mx mn draws0 draws = Ok rs -> In (s, conv, k) rs -> (k < mx)%Z -> (100 < k)%Z.
Proof.
  intros F N values L tol mx mn draws0 draws rs s conv k Hmx Hv H Hin Hk. unfold level_variance, level_number_variance, auto_limit in H.
  replace (mx <=? 0)%Z with false in H by (symmetry; apply Z.leb_gt; lia). apply In_nth_error in Hin as (j & Hj).
  apply each_spec in H as (Hl & H). assert (Hx : exists x, nth_error L j = Some x).
  { destruct (nth_error L j) eqn:E; [eauto|]. apply nth_error_None in E. assert (nth_error rs j <> None) by congruence. apply nth_error_Some in H0. lia. }
  destruct Hx as (x & Hx). destruct (H j x Hx) as (r & H1 & H2). assert (r = (s, conv, k)) by congruence. subst r.
  destruct (C36_iterations values x mx tol MIN_ITERS (draws (0 + j)%nat) Hv) as (s' & c' & k' & E & _ & G). rewrite E in H2. cbn in H2.
  injection H2 as -> -> ->. destruct (G Hk) as (_ & _ & G'). exact G'.
Qed.
Print Assumptions C37_minimum_100.
Example C37_case : (0 < 900)%Z /\ [b64_ofZ 0] <> [] /\
  level_variance [b64_ofZ 0] [b64_ofZ 2] (b64_ofZ 1) 900 7 (fun _ => b64_ofZ 0) (fun _ _ => b64_ofZ 0) = Ok [(b64_ofZ 0, true, 500%Z)].
Proof. split; [lia|]. split; [discriminate|]. vm_compute. reflexivity. Qed.

(** C39. Iteration count of the rigidity loop, for every number type in which the sampled values [v i] get computed. *)
Theorem C39_iterations : forall {F} {N : Num F} (u : list F) L grid mx mn tol simpson draws v,
  (forall i, delta_sample simpson grid L u draws i = Done (v i)) ->
  exists d conv k, delta_L u L grid mx mn tol simpson draws = Done (d, conv, k) /\ (2 <= k <= Z.max 2 mx)%Z /\
    ((k < mx)%Z -> conv = true /\ (k mod 1000 = 0)%Z /\ (mn < k)%Z).
Proof.
  intros F N u L grid mx mn tol simpson draws v Hv. unfold delta_L. destruct (delta_run_done BUFFER v _ mx mn tol Hv) as (m & -> & H1 & H2 & H3 & _).
  rewrite d_after_k. do 3 eexists. split; [reflexivity|]. split; [lia|]. intros Hlt. destruct (H3 Hlt) as (A & B & C). auto.
Qed.
Print Assumptions C39_iterations.
(** C39. Exact arithmetic: every run ends, and the running mean at the end is the average of all k sampled values. *)
Theorem C39_running_mean : forall (u : list R) L grid mx mn tol simpson draws, u <> [] -> (1 <= grid)%nat ->
  exists v s k, (forall i, delta_sample simpson grid L u draws i = Done (v i)) /\
    delta_run BUFFER (delta_sample simpson grid L u draws) mx mn tol = Done s /\ (2 <= k)%nat /\ (Z.of_nat k <= Z.max 2 mx)%Z /\
    d_k s = Z.of_nat k /\ d_mean s = Rmean (map v (seq 0 k)).
Proof.
  intros u L grid mx mn tol simpson draws Hu Hg. destruct (delta_sample_R simpson grid L u draws Hu Hg) as (v & Hv).
  destruct (delta_run_done BUFFER v _ mx mn tol Hv) as (m & H & H1 & H2 & _). exists v. eexists. exists (S m).
  split; [exact Hv|]. split; [exact H|]. split; [lia|]. split; [lia|]. rewrite d_after_k. split; [lia|].
  destruct (d_after_R BUFFER v m) as (_ & ->). reflexivity.
Qed.
Print Assumptions C39_running_mean.
(** Samples of a three-point spectrum in rational arithmetic: the mean of three different sampled values. *)
Example C39_case : let draws j := match j with O => 0 | S O => 1 # 2 | _ => 1 end%Q in
  match delta_run BUFFER (delta_sample false 3 2%Q [0; 1; 3]%Q draws) 3 100 0%Q,
        map (delta_sample false 3 2%Q [0; 1; 3]%Q draws) [0; 1; 2]%nat with
  | Done s, [Done a; Done b; Done c] => d_k s = 3%Z /\ Qeq_bool (d_mean s) ((a + b + c) / 3) = true /\ Qeq_bool a b = false
  | _, _ => False
  end.
Proof. vm_compute. auto. Qed.

(** C40, the part that holds: after more than 1000 passes the value is the mean of the last 1000 running means. *)
Theorem C40_last_means : forall (u : list R) L grid mx mn tol simpson draws v d conv k,
  (forall i, delta_sample simpson grid L u draws i = Done (v i)) ->
  delta_L u L grid mx mn tol simpson draws = Done (d, conv, Z.of_nat k) -> (1000 < k)%nat ->
  d = Rmean (map (fun t => Rmean (map v (seq 0 (k - t)))) (seq 0 1000)) /\
  ((forall i, (i < k)%nat -> v i = v 0%nat) -> d = v 0%nat).
Proof.
  intros u L grid mx mn tol simpson draws v d conv k Hv H Hk. unfold delta_L in H.
  destruct (delta_run_done BUFFER v _ mx mn tol Hv) as (m & E & H1 & _). rewrite E in H.
  assert (Ed : d = nmean (d_buf (d_after BUFFER v m))) by congruence. rewrite Ed. clear Ed. injection H as _ _ Ek. rewrite d_after_k in Ek.
  assert (Hm : k = S m) by lia. subst k. split.
  - rewrite nmean_R, Rmean_INR, d_buf_length, window_sum by (exact H1 || (unfold BUFFER; lia)).
    replace (Z.of_nat m + 1 <=? BUFFER)%Z with false by (symmetry; apply Z.leb_gt; unfold BUFFER; lia).
    rewrite Rmean_INR, map_length, seq_length. change (Z.to_nat BUFFER) with 1000%nat. f_equal. f_equal. apply map_ext. intros t.
    unfold runmean. now replace (m + 1 - t)%nat with (S m - t)%nat by lia.
  - intros Hc. rewrite (mean_const BUFFER v ltac:(unfold BUFFER; lia) (v 0%nat) m H1) by (intros; apply Hc; lia).
    now replace (BUFFER <? Z.of_nat m + 1)%Z with true by (symmetry; apply Z.ltb_lt; unfold BUFFER; lia).
Qed.
Print Assumptions C40_last_means.
(** Its Example is C40_case in T_RigidityMean.v, where the rigidity of one window is computed over the reals. *)
(** C40 is false of the code for k <= 1000: when every sampled value is d, the result is d*k/1000 for k < 1000 and 0.999 d for
    k = 1000; witness: two equal samples 1/12 give 1/6000. *)
Theorem C40_short_runs_refuted :
  (forall (u : list R) L grid mx mn tol simpson draws v d conv k,
    (forall i, delta_sample simpson grid L u draws i = Done (v i)) ->
    delta_L u L grid mx mn tol simpson draws = Done (d, conv, Z.of_nat k) -> (forall i, (i < k)%nat -> v i = v 0%nat) ->
    ((k < 1000)%nat -> d = v 0%nat * INR k / 1000) /\ (k = 1000%nat -> d = 0.999 * v 0%nat)) /\
  (exists (u : list Q) L draws x, (forall i, delta_sample false 5 L u draws i = Done x) /\
     delta_L u L 5 2 100 0%Q false draws = Done (Qred (x * 2 / 1000), false, 2%Z) /\ Qeq_bool (x * 2 / 1000) x = false).
Proof.
  split.
  - intros u L grid mx mn tol simpson draws v d conv k Hv H Hc. unfold delta_L in H.
    destruct (delta_run_done BUFFER v _ mx mn tol Hv) as (m & E & H1 & _). rewrite E in H.
  assert (Ed : d = nmean (d_buf (d_after BUFFER v m))) by congruence. rewrite Ed. clear Ed. injection H as _ _ Ek. rewrite d_after_k in Ek.
    assert (Hm : k = S m) by lia. subst k.
    rewrite (mean_const BUFFER v ltac:(unfold BUFFER; lia) (v 0%nat) m H1) by (intros; apply Hc; lia). split; intros Hk.
    + replace (BUFFER <? Z.of_nat m + 1)%Z with false by (symmetry; apply Z.ltb_ge; unfold BUFFER; lia).
      replace (Z.of_nat m + 1 =? BUFFER)%Z with false by (symmetry; apply Z.eqb_neq; unfold BUFFER; lia). unfold BUFFER. now rewrite Nat.add_1_r.
    + replace (BUFFER <? Z.of_nat m + 1)%Z with false by (symmetry; apply Z.ltb_ge; unfold BUFFER; lia).
      replace (Z.of_nat m + 1 =? BUFFER)%Z with true by (symmetry; apply Z.eqb_eq; unfold BUFFER; lia). unfold BUFFER. lra.
  - exists [0; 1]%Q, 2%Q, (fun _ => 0)%Q. eexists. split; [intros i; vm_compute; reflexivity|]. vm_compute. auto.
Qed.
Print Assumptions C40_short_runs_refuted.

(** C44. Whatever the order in which the threads perform the stores of all iterations, position i of the three outputs holds
    the result computed for L[i]; the outputs are as long as L, whatever memory [iters] was allocated in. *)
Theorem C44_levelvariance : forall {F} {N : Num F} (u L : list F) tol mx mn draws rs, 
  each 0 L (fun i x => let! o := sigma_L u x mx tol mn (draws i) in finished o) = Ok rs ->
  forall schedule junk d0, length junk = length L -> Permutation schedule (all_stores (length L) (fun i => nth i rs d0)) ->
  match run_stores (length L) junk schedule with
  | (sigma, conv, iters) => length sigma = length L /\ length conv = length L /\ length iters = length L /\
      forall i x, nth_error L i = Some x -> exists s c k, sigma_L u x mx tol mn (draws i) = Ok (Done (s, c, k)) /\
        nth_error sigma i = Some s /\ nth_error conv i = Some c /\ nth_error iters i = Some k
  end.
Proof.
  intros F N u L tol mx mn draws rs H schedule junk d0 Hj HP. rewrite (run_any_order _ _ _ _ Hj HP). unfold vals. rewrite !map_length, !seq_length.
  repeat split; auto. intros i x Hx. apply each_spec in H as (Hl & H). destruct (H i x Hx) as ([[s c] k] & H1 & H2).
  exists s, c, k. cbn [plus] in H2. assert (Hi : (i < length L)%nat) by (apply nth_error_Some; congruence).
  split. { destruct (sigma_L u x mx tol mn (draws i)) as [[a| |]|]; cbn in H2; try discriminate. congruence. }
  rewrite !nth_error_map, !(nth_error_nth' (seq 0 (length L)) 0%nat) by now rewrite seq_length. rewrite seq_nth by exact Hi. cbn [plus option_map].
  rewrite (nth_error_nth _ _ d0 H1). auto.
Qed.
Print Assumptions C44_levelvariance.
Theorem C44_rigidity : forall {F} {N : Num F} (u L : list F) grid tol mx mn simpson draws rs, 
  each 0 L (fun i x => finished (delta_L u x grid mx mn tol simpson (draws i))) = Ok rs ->
  forall schedule d0, Permutation schedule (all_stores (length L) (fun i => nth i rs d0)) ->
  match run_stores (length L) (repeat 0%Z (length L)) schedule with
  | (delta, conv, iters) => length delta = length L /\ length conv = length L /\ length iters = length L /\
      forall i x, nth_error L i = Some x -> exists s c k, delta_L u x grid mx mn tol simpson (draws i) = Done (s, c, k) /\
        nth_error delta i = Some s /\ nth_error conv i = Some c /\ nth_error iters i = Some k
  end.
Proof.
  intros F N u L grid tol mx mn simpson draws rs H schedule d0 HP. rewrite (run_any_order _ _ _ _ (repeat_length _ _) HP). unfold vals. rewrite !map_length, !seq_length.
  repeat split; auto. intros i x Hx. apply each_spec in H as (Hl & H). destruct (H i x Hx) as ([[s c] k] & H1 & H2).
  exists s, c, k. cbn [plus] in H2. assert (Hi : (i < length L)%nat) by (apply nth_error_Some; congruence).
  split. { destruct (delta_L u x grid mx mn tol simpson (draws i)) as [a| |]; cbn in H2; try discriminate. congruence. }
  rewrite !nth_error_map, !(nth_error_nth' (seq 0 (length L)) 0%nat) by now rewrite seq_length. rewrite seq_nth by exact Hi. cbn [plus option_map].
  rewrite (nth_error_nth _ _ d0 H1). auto.
Qed.
Print Assumptions C44_rigidity.
(** The stores of two iterations performed interleaved, the second iteration first. *)
Example C44_case : let rs := [((1 # 4)%Q, false, 2%Z); (0%Q, true, 2%Z)] in
  each 0 [2; 4]%Q (fun i x => let! o := sigma_L [0; 1; 3]%Q x 2 (1 # 100)%Q 0 (match i with O => fun j => match j with S (S _) => 1 # 3 | _ => 1 end | _ => fun _ => 1 # 2 end)%Q in finished o) = Ok rs /\
  run_stores 2 [77; 88]%Z [StoreK 1%nat 2%Z; StoreV 0%nat (1 # 4)%Q; StoreB 1%nat true; StoreV 1%nat 0%Q; StoreK 0%nat 2%Z; StoreB 0%nat false]
    = ([1 # 4; 0]%Q, [false; true], [2; 2]%Z).
Proof. split; vm_compute; reflexivity. Qed.

(** C45. No positive limit: the largest L is probed; no convergence gives ConvergenceError; convergence after k passes makes
    the call behave as one with the positive limit 2 k. *)
Theorem C45_levelvariance_auto : forall (u L : list R) tol mx draws0 draws Lmax, u <> [] -> IsMax L Lmax -> (mx <= 0)%Z ->
  exists s conv k, sigma_L u Lmax 1000000000 tol 1000 draws0 = Ok (Done (s, conv, k)) /\ (0 < 2 * k)%Z /\
    (conv = false -> level_number_variance u L tol mx draws0 draws = Raise ConvergenceErr) /\
    (conv = true -> level_number_variance u L tol mx draws0 draws = level_number_variance u L tol (2 * k) draws0 draws).
Proof.
  intros u L tol mx draws0 draws Lmax Hu HL Hmx.
  destruct (C36_iterations u Lmax 1000000000 tol 1000 draws0 Hu) as (s & conv & k & E & Hk & _). exists s, conv, k. split; [exact E|]. split; [lia|].
  destruct L as [|h t]; [destruct HL as ([] & _)|]. assert (EL : nmax h t = Lmax).
  { destruct (nmax_IsMax h t) as (A & B). destruct HL as (C & D). rewrite Forall_forall in B, D. specialize (B _ C). specialize (D _ A). lra. }
  assert (G : level_number_variance u (h :: t) tol mx draws0 draws = if conv then level_number_variance u (h :: t) tol (2 * k) draws0 draws else Raise ConvergenceErr).
  { unfold level_number_variance at 1, auto_limit. rewrite (proj2 (Z.leb_le mx 0)) by lia. cbn [np_max]. rewrite EL.
    change (let! Lmax := Ok Lmax in ?f Lmax) with (f Lmax). change AUTO_MAX_ITERS with 1000000000%Z. change (10 * MIN_ITERS)%Z with 1000%Z. cbn [bind]. rewrite E. cbn [bind finished fst snd].
    destruct conv; [|reflexivity]. unfold level_number_variance, auto_limit. rewrite (proj2 (Z.leb_gt (2 * k) 0)) by lia. reflexivity. }
  rewrite G. split; intros ->; reflexivity.
Qed.
Print Assumptions C45_levelvariance_auto.
Theorem C45_rigidity_auto : forall (u L : list R) tol mx grid simpson draws0 draws Lmax, u <> [] -> IsMax L Lmax -> (mx <= 0)%Z ->
  exists d conv k, delta_L u Lmax 100 1000000000 1000 tol simpson draws0 = Done (d, conv, k) /\ (0 < 2 * k)%Z /\
    (conv = false -> spectral_rigidity u L mx grid tol simpson draws0 draws = Raise ConvergenceErr) /\
    (conv = true -> spectral_rigidity u L mx grid tol simpson draws0 draws = spectral_rigidity u L (2 * k) grid tol simpson draws0 draws).
Proof.
  intros u L tol mx grid simpson draws0 draws Lmax Hu HL Hmx. destruct (delta_sample_R simpson 100 Lmax u draws0 Hu ltac:(lia)) as (v & Hv).
  destruct (C39_iterations u Lmax 100 1000000000 1000 tol simpson draws0 v Hv) as (s & conv & k & E & Hk & _). exists s, conv, k. split; [exact E|]. split; [lia|].
  destruct L as [|h t]; [destruct HL as ([] & _)|]. assert (EL : nmax h t = Lmax).
  { destruct (nmax_IsMax h t) as (A & B). destruct HL as (C & D). rewrite Forall_forall in B, D. specialize (B _ C). specialize (D _ A). lra. }
  assert (G : spectral_rigidity u (h :: t) mx grid tol simpson draws0 draws = if conv then spectral_rigidity u (h :: t) (2 * k) grid tol simpson draws0 draws else Raise ConvergenceErr).
  { unfold spectral_rigidity at 1, auto_limit. rewrite (proj2 (Z.leb_le mx 0)) by lia. cbn [np_max bind]. rewrite EL.
    change AUTO_MAX_ITERS with 1000000000%Z. change (10 * MIN_ITERS)%Z with 1000%Z. change (Z.to_nat RIGIDITY_GRID) with 100%nat. rewrite E. cbn [bind finished fst snd].
    destruct conv; [|reflexivity]. unfold spectral_rigidity, auto_limit. rewrite (proj2 (Z.leb_gt (2 * k) 0)) by lia. reflexivity. }
  rewrite G. split; intros ->; reflexivity.
Qed.
Print Assumptions C45_rigidity_auto.
(** C45. No L at all: nothing to probe, so without a positive limit the largest L of an empty array is asked for. *)
Theorem C45_no_L : forall {F} {N : Num F} (u : list F) tol mx grid simpson draws0 draws,
  ((mx <= 0)%Z -> level_number_variance u [] tol mx draws0 draws = Raise ValueError /\ spectral_rigidity u [] mx grid tol simpson draws0 draws = Raise ValueError) /\
  ((0 < mx)%Z -> level_number_variance u [] tol mx draws0 draws = Ok [] /\ spectral_rigidity u [] mx grid tol simpson draws0 draws = Ok []).
Proof.
  intros F N u tol mx grid simpson draws0 draws. unfold level_number_variance, spectral_rigidity, auto_limit. destruct (mx <=? 0)%Z eqn:E.
  - apply Z.leb_le in E. split; [intros _; split; reflexivity|lia].
  - apply Z.leb_gt in E. split; [lia|intros _; split; reflexivity].
Qed.
Print Assumptions C45_no_L.
Example C45_no_L_case : level_number_variance [0; 1; 3]%Q [] (1 # 100)%Q 0 (fun _ => 0%Q) (fun _ _ => 1%Q) = Raise ValueError /\
  level_number_variance [0; 1; 3]%Q [] (1 # 100)%Q 1 (fun _ => 0%Q) (fun _ _ => 1%Q) = Ok [].
Proof. split; vm_compute; reflexivity. Qed.
(** C45. Positive limit: no probe ([draws0] is not consulted) and no exception. *)
Theorem C45_levelvariance_limit : forall {F} {N : Num F} (u L : list F) tol mx draws0 draws, u <> [] -> (0 < mx)%Z ->
  exists rs, (forall draws0', level_number_variance u L tol mx draws0' draws = Ok rs) /\ level_number_variance u L tol mx draws0 draws = Ok rs /\
    length rs = length L /\ Forall (fun r => (1 <= snd r <= mx)%Z) rs.
Proof.
  intros F N u L tol mx draws0 draws Hu Hmx. unfold level_number_variance, auto_limit. rewrite (proj2 (Z.leb_gt mx 0)) by lia. generalize 0%nat.
  induction L as [|x L IH]; intros i; cbn [each].
  - exists []. repeat split; auto.
  - destruct (C36_iterations u x mx tol MIN_ITERS (draws i) Hu) as (s & c & k & -> & Hk & _). cbn [bind finished].
    destruct (IH (S i)) as (rs & _ & -> & Hl & HF). exists ((s, c, k) :: rs). split; [reflexivity|]. split; [reflexivity|]. split; [cbn; lia|]. constructor; [cbn; lia|exact HF].
Qed.
Print Assumptions C45_levelvariance_limit.
Theorem C45_rigidity_limit : forall (u L : list R) tol mx grid simpson draws0 draws, u <> [] -> (1 <= grid)%nat -> (0 < mx)%Z ->
  exists rs, (forall draws0', spectral_rigidity u L mx grid tol simpson draws0' draws = Ok rs) /\ spectral_rigidity u L mx grid tol simpson draws0 draws = Ok rs /\
    length rs = length L /\ Forall (fun r => (2 <= snd r <= Z.max 2 mx)%Z) rs.
Proof.
  intros u L tol mx grid simpson draws0 draws Hu Hg Hmx. unfold spectral_rigidity, auto_limit. rewrite (proj2 (Z.leb_gt mx 0)) by lia. generalize 0%nat.
  induction L as [|x L IH]; intros i; cbn [each].
  - exists []. repeat split; auto.
  - destruct (delta_sample_R simpson grid x u (draws i) Hu Hg) as (v & Hv).
    destruct (C39_iterations u x grid mx MIN_ITERS tol simpson (draws i) v Hv) as (s & c & k & -> & Hk & _). cbn [bind finished].
    destruct (IH (S i)) as (rs & _ & -> & Hl & HF). exists ((s, c, k) :: rs). split; [reflexivity|]. split; [reflexivity|]. split; [cbn; lia|]. constructor; [cbn; lia|exact HF].
Qed.
Print Assumptions C45_rigidity_limit.
(** Limit 0: the generic rule on concrete probe outcomes, and a limited run over two values of L. *)
Example C45_case :
  auto_limit [1; 3; 2]%Q 0 (fun x mx mn => Ok (Qeq_bool x 3 && (mx =? 1000000000)%Z && (mn =? 1000)%Z, 1500%Z)) (fun m => Ok m) = Ok 3000%Z /\
  auto_limit [1; 3; 2]%Q (-1) (fun x mx mn => Ok (false, mx)) (fun m => Ok m) = Raise ConvergenceErr /\
  level_number_variance [0; 1; 3]%Q [2; 4]%Q (1 # 100)%Q 2 (fun _ => 0%Q) (fun i j => if Nat.eqb j 2 then 1 # 3 else 1)%Q
    = Ok [((1 # 4)%Q, false, 2%Z); ((1 # 4)%Q, false, 2%Z)] /\
  IsMax [1; 3; 2] 3.
Proof.
  split; [vm_compute; reflexivity|]. split; [vm_compute; reflexivity|]. split; [vm_compute; reflexivity|].
  split; [now right; left|]. repeat constructor; lra.
Qed.
(** Over the reals: the two limits for a spectrum of two values. *)
Example C45_limit_case : exists rs, level_number_variance [0; 1] [1; 2] (1 / 100) 7 (fun _ => 0) (fun _ _ => 1 / 2) = Ok rs /\ length rs = 2%nat /\
  Forall (fun r => (1 <= snd r <= 7)%Z) rs /\
  exists rs', spectral_rigidity [0; 1] [1; 2] 7 5 (1 / 100) true (fun _ => 0) (fun _ _ => 1 / 2) = Ok rs' /\ length rs' = 2%nat /\
  Forall (fun r => (2 <= snd r <= 7)%Z) rs'.
Proof.
  destruct (C45_levelvariance_limit [0; 1] [1; 2] (1 / 100) 7 (fun _ => 0) (fun _ _ => 1 / 2) ltac:(discriminate) ltac:(lia)) as (rs & _ & E & L & G).
  destruct (C45_rigidity_limit [0; 1] [1; 2] (1 / 100) 7 5 true (fun _ => 0) (fun _ _ => 1 / 2) ltac:(discriminate) ltac:(lia) ltac:(lia)) as (rs' & _ & E' & L' & G').
  exists rs. split; [exact E|]. split; [exact L|]. split; [exact G|]. exists rs'. auto.
Qed.
