(** Properties C18, C19, C21: Marchenko-Pastur trimming, zero trimming, from_correlations. *)
From Coq Require Import List ZArith Bool Arith Lia Reals Lra Sorting.Sorted Sorting.Permutation.
From Verif Require Import Base S_Order S_EigVals S_Series M_EigVals M_Series P_Order P_Step P_EigVals P_TrimStat P_TrimFull P_Series.
Import ListNotations.
Local Open Scope R_scope.

(** C18. Marchenko-Pastur trimming, for every ascending spectrum with largest value [emax] and all positive N, T. *)
Theorem C18_marchenko_pastur : forall vals n t emax selfN selfT nser len shifted,
  Ascending vals -> Largest vals emax -> (0 < n)%Z -> (0 < t)%Z ->
  (match nser with Some x => Some x | None => selfN end) = Some n ->
  (match len with Some x => Some x | None => selfT end) = Some t ->
  exists signal noise lo hi,
    trim_marchenko_pastur sqrt vals selfN selfT nser len true shifted = Ok (signal, (lo, hi)) /\
    trim_marchenko_pastur sqrt vals selfN selfT nser len false shifted = Ok (noise, (lo, hi)) /\
    lo = MPLower (if shifted then 1 - emax / IZR n else 1) n t /\
    hi = MPUpper (if shifted then 1 - emax / IZR n else 1) n t /\
    Keeps (fun v => hi < v) vals signal /\ Keeps (fun v => lo < v < hi) vals noise /\
    (forall v, In v signal -> ~ In v noise) /\
    (shifted = false \/ emax <= IZR n -> 0 <= lo <= hi) /\
    (shifted = true -> IZR n < emax -> noise = [] /\ hi <= lo).
Proof. exact mp_full. Qed.
Print Assumptions C18_marchenko_pastur.

Theorem C18_missing_sizes : forall vals nser len largest shifted selfN selfT,
  (nser = None /\ selfN = None) \/ (len = None /\ selfT = None) ->
  trim_marchenko_pastur sqrt vals selfN selfT nser len largest shifted = Raise ValueError.
Proof.
  intros vals nser len largest shifted selfN selfT [[-> ->]|[-> ->]]; unfold trim_marchenko_pastur; [reflexivity|].
  destruct nser; [reflexivity|]. destruct selfN; reflexivity.
Qed.
Print Assumptions C18_missing_sizes.
Example C18_missing_case : trim_marchenko_pastur sqrt [1; 2] (Some 5%Z) None None None true false = Raise ValueError /\
  exists r, trim_marchenko_pastur sqrt [1; 2] (Some 5%Z) None None (Some 9%Z) true false = Ok r.
Proof. split; [apply C18_missing_sizes; now right|eexists; reflexivity]. Qed.

(** N = 1, T = 4: the unshifted bulk is (1/4, 9/4); of 0.1, 1, 2, 3 the middle two are noise and 3 is signal. *)
Example C18_case : exists hi lo, lo = 1/4 /\ hi = 9/4 /\
  trim_marchenko_pastur sqrt [1/10; 1; 2; 3] None None (Some 1%Z) (Some 4%Z) true false = Ok ([3], (lo, hi)) /\
  trim_marchenko_pastur sqrt [1/10; 1; 2; 3] None None (Some 1%Z) (Some 4%Z) false false = Ok ([1; 2], (lo, hi)).
Proof.
  assert (Ascending [1/10; 1; 2; 3]) as Ha.
  { apply StronglySorted_R. repeat (constructor; [|repeat constructor; lra]). constructor. }
  assert (Largest [1/10; 1; 2; 3] 3) as Hm.
  { split; [cbn; tauto|]. intros x Hx. cbn in Hx. destruct Hx as [<-|[<-|[<-|[<-|[]]]]]; lra. }
  assert (sqrt (1 / 4) = 1 / 2) as Hq. { replace (1 / 4) with ((1 / 2) * (1 / 2)) by lra. apply sqrt_square. lra. }
  destruct (C18_marchenko_pastur _ 1 4 3 None None (Some 1%Z) (Some 4%Z) false Ha Hm ltac:(lia) ltac:(lia) eq_refl eq_refl)
    as (sg & no & lo & hi & E1 & E2 & El & Eh & K1 & K2 & _).
  unfold MPLower, MPUpper in El, Eh. rewrite Hq in El, Eh.
  exists hi, lo. splits; [lra|lra| |].
  - rewrite E1. do 2 f_equal. symmetry.
    apply (keeps_filter (fun v => nlt hi v)) in K1; [|intro; apply nlt_R]. rewrite K1. cbn [filter].
    assert (nlt hi (1/10) = false) as -> by (apply nlt_R_false; lra).
    assert (nlt hi 1 = false) as -> by (apply nlt_R_false; lra).
    assert (nlt hi 2 = false) as -> by (apply nlt_R_false; lra).
    assert (nlt hi 3 = true) as -> by (apply nlt_R; lra). reflexivity.
  - rewrite E2. do 2 f_equal.
    apply (keeps_filter (fun v => nlt lo v && nlt v hi)) in K2; [|intro; apply and_nlt_R]. rewrite K2. cbn [filter].
    assert (nlt lo (1/10) = false) as -> by (apply nlt_R_false; lra).
    assert (nlt lo 1 = true) as -> by (apply nlt_R; lra).
    assert (nlt lo 2 = true) as -> by (apply nlt_R; lra).
    assert (nlt lo 3 = true) as -> by (apply nlt_R; lra).
    assert (nlt 1 hi = true) as -> by (apply nlt_R; lra).
    assert (nlt 2 hi = true) as -> by (apply nlt_R; lra).
    assert (nlt 3 hi = false) as -> by (apply nlt_R_false; lra). reflexivity.
Qed.

(** C19. Zero trimming, whatever the eigensolver returned.  [nN] series of length [nT]; the solver used is the direct
    one iff [nN <= nT]. *)
Theorem C19_zero_trimming : forall ds tr (a : ndarray R) r c cov rule axis eigs nN nT d thr,
  shape a = [r; c] ->
  ((axis = 1%Z /\ nN = r /\ nT = c /\ d = data a) \/ (axis = 0%Z /\ nN = c /\ nT = r /\ d = transpose2 r c (data a))) ->
  (0 < nT)%nat ->
  (if Nat.leb nN nT then ds nN nT d cov else tr nN nT d cov) = Ok eigs ->
  Threshold rule eigs thr ->
  exists k, Keeps (fun e => thr < e) eigs k /\
    (k = [] -> from_time_series sqrt ds tr a cov true (rule_arg rule) axis = Raise ValueError) /\
    (k <> [] -> exists ts, from_time_series sqrt ds tr a cov true (rule_arg rule) axis = Ok ts /\
       Permutation k (ts_vals ts) /\ Ascending (ts_vals ts) /\ ts_N ts = nN /\ ts_T ts = nT) /\
    ((forall z, rule <> RuleFloat z) -> Forall (fun e => 0 < e) k).
Proof.
  intros ds tr a r c cov rule axis eigs nN nT d thr Hs Hax HT Hsol Hth.
  destruct (zero_trim_threshold rule eigs thr Hth) as [k [Hk HK]].
  destruct (fts_unfold ds tr a r c cov true (rule_arg rule) axis eigs Hs nN nT d Hax HT Hsol k Hk) as [F1 F2].
  exists k. splits; [exact HK | exact F1 | |].
  - intro Hne. destruct (F2 Hne) as (ts & em & E & V & En & Et & _). exists ts. splits; auto.
    + rewrite V. apply np_sort_perm.
    + rewrite V. apply np_sort_ascending, notnan_R.
  - intros Hnf. apply Forall_forall. intros x Hx. apply (Keeps_in _ _ _ x HK) in Hx. destruct Hx as [_ Hx].
    destruct rule as [|z|]; cbn in Hth; [lra | exfalso; exact (Hnf z eq_refl) |].
    destruct Hth as [m [_ [[_ ->]|[_ ->]]]]; [pose proof (Rabs_pos m); lra | lra].
Qed.
Print Assumptions C19_zero_trimming.

(** The heuristic mode keeps everything when the smallest eigenvalue is positive; [trim_zeros=False] keeps
    everything; an eigensolver returning nothing, a malformed [zeros], a bad axis or a non-2-D array raise. *)
Theorem C19_corner_cases : forall ds tr (a : ndarray R) r c cov axis eigs nN nT d,
  shape a = [r; c] ->
  ((axis = 1%Z /\ nN = r /\ nT = c /\ d = data a) \/ (axis = 0%Z /\ nN = c /\ nT = r /\ d = transpose2 r c (data a))) ->
  (0 < nT)%nat ->
  (if Nat.leb nN nT then ds nN nT d cov else tr nN nT d cov) = Ok eigs ->
  (eigs <> [] -> Forall (fun e => 0 < e) eigs ->
     exists ts, from_time_series sqrt ds tr a cov true ZHeuristic axis = Ok ts /\ Permutation eigs (ts_vals ts)) /\
  (eigs <> [] -> forall zeros,
     exists ts, from_time_series sqrt ds tr a cov false zeros axis = Ok ts /\ Permutation eigs (ts_vals ts)) /\
  (eigs = [] -> forall rule, from_time_series sqrt ds tr a cov true (rule_arg rule) axis = Raise ValueError) /\
  from_time_series sqrt ds tr a cov true ZBadString axis = Raise ValueError /\
  (forall bad trim zeros, bad <> 0%Z -> bad <> 1%Z -> from_time_series sqrt ds tr a cov trim zeros bad = Raise ValueError) /\
  (forall b trim zeros, length (shape b) <> 2%nat -> from_time_series sqrt ds tr b cov trim zeros axis = Raise ValueError).
Proof.
  intros ds tr a r c cov axis eigs nN nT d Hs Hax HT Hsol.
  assert (forall trim zeros k, zero_trim trim zeros eigs = Ok k -> k <> [] ->
    exists ts, from_time_series sqrt ds tr a cov trim zeros axis = Ok ts /\ Permutation k (ts_vals ts)) as HA.
  { intros trim zeros k Hk Hne.
    destruct (fts_unfold ds tr a r c cov trim zeros axis eigs Hs nN nT d Hax HT Hsol k Hk) as [_ F2].
    destruct (F2 Hne) as (ts & em & E & V & _). exists ts. split; [exact E|]. rewrite V. apply np_sort_perm. }
  assert (negb ((axis =? 0)%Z || (axis =? 1)%Z) = false) as Hx1
    by (destruct Hax as [[-> _]|[-> _]]; reflexivity).
  assert ((if (axis =? 0)%Z then (c, r, transpose2 r c (data a)) else (r, c, data a)) = (nN, nT, d)) as Hx2
    by (destruct Hax as [(-> & -> & -> & ->)|(-> & -> & -> & ->)]; reflexivity).
  splits.
  - intros Hne Hp. apply HA; [|exact Hne].
    pose proof (zero_trim_spec ZHeuristic eigs Hne) as (m & k & Hm & Hk & [(Hl & _)|(_ & ->)]); [|exact Hk].
    exfalso. destruct Hm as [Hm _]. rewrite Forall_forall in Hp. specialize (Hp m Hm). lra.
  - intros Hne zeros. apply HA; [reflexivity | exact Hne].
  - intros -> rule. unfold from_time_series. rewrite Hs, Hx1, Hx2, Hsol. cbn [bind]. destruct rule; reflexivity.
  - unfold from_time_series. rewrite Hs, Hx1, Hx2, Hsol. reflexivity.
  - intros bad trim zeros H0 H1. unfold from_time_series. rewrite Hs.
    apply Z.eqb_neq in H0, H1. rewrite H0, H1. reflexivity.
  - intros b trim zeros Hb. unfold from_time_series. destruct (shape b) as [|x [|y [|z w]]]; try reflexivity. cbn in Hb. lia.
Qed.
Print Assumptions C19_corner_cases.

(** A 2 x 3 array whose eigensolver returns a tiny negative value: [zeros='heuristic'] removes -0.001 and 0.05,
    [zeros='negative'] only the former. *)
Definition ex_arr : ndarray R := mkarr [2; 3]%nat [1; 2; 3; 4; 5; 7].
Definition ex_solver (nN nT : nat) (d : list R) (cov : bool) : result (list R) := Ok [-1/1000; 5/100; 2].
Example C19_case :
  (exists ts, from_time_series sqrt ex_solver ex_solver ex_arr true true ZHeuristic 1 = Ok ts /\ ts_vals ts = [2]) /\
  (exists ts, from_time_series sqrt ex_solver ex_solver ex_arr true true ZNegative 1 = Ok ts /\ ts_vals ts = [5/100; 2]).
Proof.
  assert (Threshold RuleHeuristic [-1/1000; 5/100; 2] (1/10)) as Hth.
  { exists (-1/1000). split; [split; [cbn; tauto|]|].
    - intros x Hx. cbn in Hx. destruct Hx as [<-|[<-|[<-|[]]]]; lra.
    - left. split; [lra|]. rewrite Rabs_left by lra. lra. }
  split.
  - destruct (C19_zero_trimming ex_solver ex_solver ex_arr 2 3 true RuleHeuristic 1 _ 2 3 _ _ eq_refl
       (or_introl (conj eq_refl (conj eq_refl (conj eq_refl eq_refl)))) ltac:(lia) eq_refl Hth) as (k & K & _ & K2 & _).
    apply (keeps_filter (fun e => nlt (1/10) e)) in K; [|intro; apply nlt_R]. cbn [filter] in K.
    assert (nlt (1/10) (-1/1000) = false) as E1 by (apply nlt_R_false; lra).
    assert (nlt (1/10) (5/100) = false) as E2 by (apply nlt_R_false; lra).
    assert (nlt (1/10) 2 = true) as E3 by (apply nlt_R; lra).
    rewrite E1, E2, E3 in K. subst k. destruct (K2 ltac:(discriminate)) as (ts & E & P & _).
    exists ts. split; [exact E|]. apply Permutation_length_1_inv in P. exact P.
  - destruct (C19_zero_trimming ex_solver ex_solver ex_arr 2 3 true RuleNegative 1 [-1/1000; 5/100; 2] 2 3 _ 0 eq_refl
       (or_introl (conj eq_refl (conj eq_refl (conj eq_refl eq_refl)))) ltac:(lia) eq_refl eq_refl) as (k & K & _ & K2 & _).
    apply (keeps_filter (fun e => nlt 0 e)) in K; [|intro; apply nlt_R]. cbn [filter] in K.
    assert (nlt 0 (-1/1000) = false) as E1 by (apply nlt_R_false; lra).
    assert (nlt 0 (5/100) = true) as E2 by (apply nlt_R; lra).
    assert (nlt 0 2 = true) as E3 by (apply nlt_R; lra).
    rewrite E1, E2, E3 in K. subst k. destruct (K2 ltac:(discriminate)) as (ts & E & P & A & _).
    exists ts. split; [exact E|]. apply sorted_perm_eq; [apply StronglySorted_R; exact A | | symmetry; exact P].
    repeat (constructor; [|repeat constructor; lra]). constructor.
Qed.

(** C21. What [from_correlations] returns, for every 1-D or 2-D array: the entries below the tolerance. *)
Theorem C21_returns_small_entries : forall eigvalsh (a : ndarray R) atol evs,
  (length (shape a) <= 2)%nat -> eigvalsh a = Ok evs ->
  exists k vals, Keeps (fun e => Rabs e < atol) (data a) k /\
    from_correlations eigvalsh a atol = Ok vals /\ Permutation k vals /\ Ascending vals.
Proof.
  intros eigvalsh a atol evs Hs He. eexists _, _. splits.
  - apply (filter_keeps (fun e => nlt (Rabs e) atol)). intro x. apply nlt_R.
  - rewrite (from_correlations_value eigvalsh a atol evs Hs He). reflexivity.
  - apply np_sort_perm.
  - apply np_sort_ascending, notnan_R.
Qed.
Print Assumptions C21_returns_small_entries.
(** A 2x2 correlation matrix with a small correlation: what comes back is that correlation, twice. *)
Example C21_case : from_correlations (fun _ => Ok [19/20; 21/20]) (mkarr [2; 2]%nat [1; 1/20; 1/20; 1]) (1/10) = Ok [1/20; 1/20].
Proof.
  rewrite (from_correlations_value _ _ _ [19/20; 21/20]) by (cbn; auto; lia). cbn [data filter nabs Num_R].
  assert (nlt (Rabs 1) (1/10) = false) as -> by (apply nlt_R_false; rewrite Rabs_pos_eq; lra).
  assert (nlt (Rabs (1/20)) (1/10) = true) as -> by (apply nlt_R; rewrite Rabs_pos_eq; lra).
  f_equal. apply np_sort_id, Ascending_NpLe; [apply notnan_R|]. apply StronglySorted_R. repeat constructor; lra.
Qed.

(** The claim (eigenvalues of magnitude >= atol) is false: for the correlation matrix ((1, 1/2), (1/2, 1)), with
    eigenvalues 1/2 and 3/2, a correct eigensolver and tolerance 1/10, nothing is returned. *)
Theorem C21_from_correlations_refuted : exists (a : ndarray R) (atol : R) (evs : list R),
  Eigs2 1 1 (1/2) evs /\ a = mkarr [2; 2]%nat [1; 1/2; 1/2; 1] /\ 0 < atol /\
  Keeps (fun e => ~ Rabs e < atol) evs evs /\ evs <> [] /\
  from_correlations (fun _ => Ok evs) a atol = Ok [].
Proof.
  exists (mkarr [2; 2]%nat [1; 1/2; 1/2; 1]), (1/10), [1/2; 3/2]. splits; try reflexivity.
  - exists (1/2), (3/2). splits; [reflexivity|lra|lra|lra].
  - lra.
  - constructor; [rewrite Rabs_pos_eq; lra|]. constructor; [rewrite Rabs_pos_eq; lra|]. constructor.
  - discriminate.
  - rewrite (from_correlations_value _ _ _ [1/2; 3/2]) by (cbn; auto; lia). cbn [data filter nabs Num_R].
    assert (nlt (Rabs 1) (1/10) = false) as -> by (apply nlt_R_false; rewrite Rabs_pos_eq; lra).
    assert (nlt (Rabs (1/2)) (1/10) = false) as -> by (apply nlt_R_false; rewrite Rabs_pos_eq; lra). reflexivity.
Qed.
Print Assumptions C21_from_correlations_refuted.

(** C66. [time_axis=0] is the same as passing the transposed array with [time_axis=1]: same eigenvalues, same
    recorded sizes, same exceptions. *)
Theorem C66_time_axis : forall ds tr (a b : ndarray R) r c cov trim zeros,
  shape a = [r; c] -> shape b = [c; r] -> length (data b) = (c * r)%nat ->
  (forall i j, (i < r)%nat -> (j < c)%nat -> nth (j * r + i) (data b) 0 = nth (i * c + j) (data a) 0) ->
  from_time_series sqrt ds tr a cov trim zeros 0 = from_time_series sqrt ds tr b cov trim zeros 1.
Proof.
  intros ds tr a b r c cov trim zeros Ha Hb Hl Hn.
  assert (data b = transpose2 r c (data a)) as E.
  { apply nth_ext with (d := 0) (d' := 0); [rewrite transpose2_length; exact Hl|].
    intros k Hk. rewrite Hl in Hk.
    assert (r <> 0%nat) as Hr by (intros ->; lia).
    rewrite (Nat.div_mod k r Hr).
    assert (k mod r < r)%nat by (apply Nat.mod_upper_bound; exact Hr).
    assert (k / r < c)%nat by (apply Nat.div_lt_upper_bound; lia).
    rewrite (Nat.mul_comm r). rewrite Hn by auto. symmetry. exact (transpose2_nth r c (data a) (k mod r) (k / r) H H0). }
  unfold from_time_series. rewrite Ha, Hb, <- E. reflexivity.
Qed.
Print Assumptions C66_time_axis.
Example C66_case :
  from_time_series sqrt ex_solver ex_solver (mkarr [2; 3]%nat [1; 2; 3; 4; 5; 6]) true true ZNegative 0 =
  from_time_series sqrt ex_solver ex_solver (mkarr [3; 2]%nat [1; 4; 2; 5; 3; 6]) true true ZNegative 1.
Proof.
  apply (C66_time_axis _ _ _ _ 2 3); try reflexivity. intros [|[|i]] [|[|[|j]]] Hi Hj; try lia; reflexivity.
Qed.

(** C67. The endpoints stored by [from_time_series]: the plain pair is (lower, upper); the shifted pair is
    stored in the opposite order, so whenever the largest eigenvalue is below N it is (larger, smaller). *)
Theorem C67_stored_endpoints_refuted : forall ds tr (a : ndarray R) r c cov trim zeros eigs k,
  shape a = [r; c] -> (0 < r)%nat -> (0 < c)%nat ->
  (if Nat.leb r c then ds r c (data a) cov else tr r c (data a) cov) = Ok eigs ->
  zero_trim trim zeros eigs = Ok k -> k <> [] ->
  exists ts emax, from_time_series sqrt ds tr a cov trim zeros 1 = Ok ts /\ Largest k emax /\
    fst (ts_mp ts) < snd (ts_mp ts) /\
    ts_mp ts = (MPLower 1 (Z.of_nat r) (Z.of_nat c), MPUpper 1 (Z.of_nat r) (Z.of_nat c)) /\
    ts_mp_shifted ts = (MPUpper (1 - emax / INR r) (Z.of_nat r) (Z.of_nat c), MPLower (1 - emax / INR r) (Z.of_nat r) (Z.of_nat c)) /\
    (emax < INR r -> snd (ts_mp_shifted ts) < fst (ts_mp_shifted ts)).
Proof.
  intros ds tr a r c cov trim zeros eigs k Hs Hr Hc Hsol Hk Hne.
  destruct (fts_unfold ds tr a r c cov trim zeros 1 eigs Hs r c (data a)
    (or_introl (conj eq_refl (conj eq_refl (conj eq_refl eq_refl)))) Hc Hsol k Hk) as [_ F2].
  destruct (F2 Hne) as (ts & em & E & V & _ & _ & Hm & E1 & E2).
  assert (forall s, 0 < s -> MPLower s (Z.of_nat r) (Z.of_nat c) < MPUpper s (Z.of_nat r) (Z.of_nat c)) as HL.
  { intros s Hs1. unfold MPLower, MPUpper. apply Rmult_lt_compat_l; [exact Hs1|].
    assert (0 < sqrt (IZR (Z.of_nat r) / IZR (Z.of_nat c))).
    { apply sqrt_lt_R0. apply Rdiv_lt_0_compat; apply IZR_lt; lia. }
    nra. }
  exists ts, em. splits; auto.
  - rewrite E1. cbn [fst snd]. apply HL. lra.
  - intro Hlt. rewrite E2. cbn [fst snd]. apply HL.
    assert (0 < INR r) by (apply lt_0_INR; exact Hr).
    assert (em / INR r < 1); [|lra]. apply (Rmult_lt_reg_r (INR r)); [lra|]. unfold Rdiv. rewrite Rmult_assoc, Rinv_l by lra. lra.
Qed.
Print Assumptions C67_stored_endpoints_refuted.
Example C67_case : exists ts,
  from_time_series sqrt (fun _ _ _ _ => Ok [1/2; 3/2]) ex_solver ex_arr true false ZNegative 1 = Ok ts /\
  snd (ts_mp_shifted ts) < fst (ts_mp_shifted ts).
Proof.
  destruct (C67_stored_endpoints_refuted (fun _ _ _ _ => Ok [1/2; 3/2]) ex_solver ex_arr 2 3 true false ZNegative
    [1/2; 3/2] [1/2; 3/2] eq_refl ltac:(lia) ltac:(lia) eq_refl eq_refl ltac:(discriminate))
    as (ts & em & E & [Hin _] & _ & _ & _ & H).
  exists ts. split; [exact E|]. apply H. cbn in Hin. destruct Hin as [<-|[<-|[]]]; cbn; lra.
Qed.
