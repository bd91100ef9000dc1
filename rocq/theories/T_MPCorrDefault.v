(** Property C162, default zero trimming: from_time_series(covariance=False), then trim_marchenko_pastur. *)
From Coq Require Import List ZArith Bool Arith Lia Reals Lra Sorting.Permutation.
From Coquelicot Require Import Coquelicot.
From Verif Require Import Base S_Order S_Generate S_Normal S_Rotate S_CCharPoly S_Moments S_Law S_MP S_Series S_Cov M_EigVals M_Series M_Cov P_Order P_EigVals P_Series P_TrimStat P_Cov P_Generate P_Surmise P_Rotate T_Rotate P_Moments P_Wishart P_Tridiag T_Units T_Wishart T_Tridiag P_Semi P_Approx P_Law P_LawUnfold T_Law P_MPLoop P_MP P_MPLaw T_MP T_MPDefault T_MPWide P_MPOne T_MPOne P_Spectral4 P_Close P_Steady T_MPCorr.
Import ListNotations.
Local Open Scope R_scope.
Local Notation length := List.length.
Local Notation total := S_Rotate.total.

(** from_time_series(data, covariance=False, trim_zeros=True, zeros="negative", time_axis=1), and trim_marchenko_pastur() of its value. *)
Definition corr_default (ev : ndarray R -> result (list R)) (n t : nat) (draws : list R) : result (tsobj R) :=
  series_object sqrt ev (mkarr [n; t] draws) false true ZNegative 1.
Definition corr_default_trim (ev : ndarray R -> result (list R)) (n t : nat) (largest shifted : bool) (draws : list R) : result (list R * (R * R)) :=
  let! o := corr_default ev n t draws in trim_marchenko_pastur sqrt (ts_vals o) (Some (Z.of_nat (ts_N o))) (Some (Z.of_nat (ts_T o))) None None largest shifted.

Local Notation pos := (fun v : R => nlt 0 v).
Lemma corr_default_values ev n t z : Diagonalises (Nat.min n t) ev -> (2 <= n)%nat -> (2 <= t)%nat -> Moving n t z ->
  exists ts, corr_object ev n t ZNegative z = Ok ts /\
    ((filter pos (ts_vals ts) = [] /\ exists x, corr_default ev n t z = Raise x) \/
     (filter pos (ts_vals ts) <> [] /\ exists ts', corr_default ev n t z = Ok ts' /\ ts_vals ts' = filter pos (ts_vals ts) /\ ts_N ts' = n /\ ts_T ts' = t)).
Proof.
  intros He Hn Ht Hv. destruct (He (handed false n t (flat t z)) (corr_symmetric n t (flat t z) (Nat.min n t))) as (lam & El & Hs).
  pose proof (solved ev n t z false ltac:(lia) ltac:(lia) (or_intror Hv)) as Hsol. rewrite El in Hsol.
  unfold corr_object, corr_default, series_object, from_time_series. cbn [shape data negb Z.eqb Pos.eqb orb]. rewrite Hsol. cbn [bind zero_trim negb].
  assert (length lam = Nat.min n t) as Hl by apply Hs. destruct lam as [|h lam]; [cbn [length] in Hl; lia|]. set (l := h :: lam) in *. destruct (arr_max_exists l ltac:(discriminate)) as (mx & _ & Em). rewrite Em. cbn [bind]. destruct (Nat.eqb_spec t 0) as [|_]; [lia|].
  eexists. split; [reflexivity|]. cbn [ts_vals].
  assert (Permutation (filter pos l) (filter pos (np_sort l))) as HP by (apply filter_perm, np_sort_perm).
  change (filter (fun e => ngt e n0) l) with (filter pos l).
  destruct (list_eq_dec Req_EM_T (filter pos l) []) as [E|E].
  - left. split; [rewrite E in HP; now apply Permutation_nil in HP|]. rewrite E. cbn [arr_max bind]. eauto.
  - right. split; [intro E'; rewrite E' in HP; apply Permutation_sym, Permutation_nil in HP; auto|]. destruct (arr_max_exists _ E) as (my & _ & Ey). rewrite Ey. cbn [bind]. eexists. split; [reflexivity|]. cbn [ts_vals ts_N ts_T].
    split; [|auto]. rewrite (np_sort_perm_R _ _ HP). apply sort_filter_sorted. apply np_sort_ascending, notnan_R.
Qed.
(** The two ways of trimming compared, for one spectrum. *)
Lemma corr_default_bounds ev n t k shifted z : Diagonalises (Nat.min n t) ev -> (2 <= n)%nat -> (2 <= t)%nat -> Nat.min n t = k -> Moving n t z ->
  let vals := vals_of (corr_object ev n t ZNegative z) in let drop := count_le 0 vals / INR k in
  failed (corr_default ev n t z) <= drop /\
  (forall x, 0 <= x -> of_object (count_le x) (corr_default ev n t z) / INR k = count_le x vals / INR k - drop) /\
  (forall ts largest, corr_default ev n t z = Ok ts -> exists r, corr_default_trim ev n t largest shifted z = Ok r) /\
  forall largest, kept_share k (corr_trim ev n t ZNegative largest shifted z) - drop <= kept_share k (corr_default_trim ev n t largest shifted z) /\
    0 <= kept_share k (corr_default_trim ev n t largest shifted z) <= kept_share k (corr_trim ev n t ZNegative largest shifted z).
Proof.
  intros He Hn Ht Hk Hv vals drop. destruct (corr_spectrum ev n t ZNegative z He Hn Ht Hv) as (ts & E & Hs & Ha & E1 & E2). destruct (corr_default_values ev n t z He Hn Ht Hv) as (ts0 & E0 & D). rewrite E in E0. injection E0 as <-.
  assert (0 < INR k) as Hp by (apply lt_0_INR; lia). assert (length (ts_vals ts) = k) as Hl by (rewrite Hk in Hs; apply Hs). unfold drop, vals in *. clear vals drop. rewrite E. cbn [vals_of]. set (vals := ts_vals ts) in *.
  pose proof (count_le_range 0 vals) as C0. rewrite Hl in C0. pose proof (Rinv_0_lt_compat _ Hp) as Hi.
  assert (vals <> []) as Hne by (intro H; rewrite H in Hl; cbn in Hl; lia). destruct (arr_max_exists vals Hne) as (m & Hm & _).
  assert (forall largest, exists f, corr_trim ev n t ZNegative largest shifted z = Ok (filter f vals, (MPLower (mp_scale shifted m (Z.of_nat n)) (Z.of_nat n) (Z.of_nat t), MPUpper (mp_scale shifted m (Z.of_nat n)) (Z.of_nat n) (Z.of_nat t))) /\
    (filter pos vals <> [] -> exists p, corr_default_trim ev n t largest shifted z = Ok (filter f (filter pos vals), p))) as Q.
  { intro largest. unfold corr_trim. rewrite E. cbn [bind]. rewrite E1, E2. fold vals.
    exists (if largest then (fun v => nlt (MPUpper (mp_scale shifted m (Z.of_nat n)) (Z.of_nat n) (Z.of_nat t)) v) else (fun v => nlt (MPLower (mp_scale shifted m (Z.of_nat n)) (Z.of_nat n) (Z.of_nat t)) v && nlt v (MPUpper (mp_scale shifted m (Z.of_nat n)) (Z.of_nat n) (Z.of_nat t)))).
    rewrite (mp_value vals (Z.of_nat n) (Z.of_nat t) m) by (auto; lia). split; [destruct largest; reflexivity|]. intro Hf. destruct D as [[D _]|(_ & ts' & D1 & D2 & D3 & D4)]; [contradiction|].
    unfold corr_default_trim. rewrite D1. cbn [bind]. rewrite D2, D3, D4. fold vals.
    assert (Largest (filter pos vals) m) as Hm'.
    { destruct (filter pos vals) as [|y r] eqn:Ef; [contradiction|]. assert (In y (filter pos vals)) as Hy by (rewrite Ef; now left). apply filter_In in Hy. destruct Hy as [Hy1 Hy2]. apply nlt_R in Hy2. rewrite <- Ef. split.
      - apply filter_In. split; [apply Hm|]. apply nlt_R. pose proof (proj2 Hm y Hy1). lra.
      - intros x Hx. apply filter_In in Hx. apply Hm, Hx. }
    rewrite (mp_value (filter pos vals) (Z.of_nat n) (Z.of_nat t) m); [destruct largest; eauto| |exact Hm'|lia|reflexivity|reflexivity]. apply SS_filter. exact Ha. }
  split; [|split; [|split]].
  - destruct D as [[D (x & Dx)]|(D & ts' & D1 & _)].
    + rewrite Dx. cbn [failed]. rewrite (count_none _ D). fold vals. rewrite Hl. unfold Rdiv. rewrite Rinv_r by lra. lra.
    + rewrite D1. cbn [failed]. unfold Rdiv. apply Rmult_le_pos; lra.
  - intros x Hx. destruct D as [[D (y & Dy)]|(D & ts' & D1 & D2 & _)].
    + rewrite Dy. cbn [of_object]. pose proof (count_split x vals Hx) as CS. fold vals in D. rewrite D in CS. change (count_le x []) with 0 in CS. unfold Rdiv. replace (count_le x vals) with (count_le 0 vals) by lra. ring.
    + rewrite D1. cbn [of_object]. rewrite D2. fold vals. rewrite count_split by exact Hx. unfold Rdiv. ring.
  - intros ts1 largest D1. destruct (Q largest) as (f & _ & Q2). destruct D as [[_ (x & Dx)]|(D & _)]; [congruence|]. destruct (Q2 D) as (p & ->). eauto.
  - intro largest. destruct (Q largest) as (f & Q1 & Q2). rewrite Q1. cbn [kept_share]. pose proof (filter_drop f vals) as [F1 F2]. pose proof (pos_INR (length (filter f vals))) as P1.
    destruct D as [[D (x & Dx)]|(D & _)].
    + unfold corr_default_trim. rewrite Dx. cbn [bind kept_share]. fold vals in D. rewrite D in F1, F2. cbn [filter length INR] in F1, F2. assert (INR (length (filter f vals)) / INR k - count_le 0 vals / INR k = (INR (length (filter f vals)) - count_le 0 vals) / INR k) as -> by (unfold Rdiv; ring).
      split; [|split; [lra|unfold Rdiv; apply Rmult_le_pos; lra]]. unfold Rdiv. assert (0 <= (count_le 0 vals - INR (length (filter f vals))) * / INR k) by (apply Rmult_le_pos; lra). lra.
    + destruct (Q2 D) as (p & ->). cbn [kept_share]. pose proof (pos_INR (length (filter f (filter pos vals)))) as P2. unfold Rdiv. split; [|split].
      * apply (Rmult_le_compat_r (/ INR k)) in F1; lra.
      * apply Rmult_le_pos; lra.
      * apply Rmult_le_compat_r; lra.
Qed.


Lemma by_cases (P : Prop) (a b : R) : (P -> a <= b) -> (~ P -> a <= b) -> a <= b.
Proof. intros H1 H2. destruct (Rle_dec a b) as [|N]; [assumption|]. exfalso. assert (~ P) as NP by (intro H; apply N; auto). apply N; auto. Qed.
(** C162. The default zero trimming: apart from data with a constant series (where [f], the number looked at, may be anything between 0 and 1) the
    construction fails, for want of a positive eigenvalue, on a vanishing share of the data; the share of the eigenvalues returned and at most x
    tends to that of the law; the trimming always follows, keeping a vanishing share as the largest ones and almost all as noise. *)
Theorem C162_default : forall ev, (forall m, Diagonalises m ev) -> forall N T (c : R), (forall j, 2 <= N j /\ 2 <= T j)%nat ->
  is_lim_seq (fun j => INR (N j)) p_infty -> is_lim_seq (fun j => INR (N j) / INR (T j)) c -> 0 < c -> forall x p, NoiseShare c x p -> forall shifted e, 0 < e -> exists J, forall j, (J <= j)%nat ->
  let m := Nat.min (N j) (T j) in
  (forall largest draws ts, Moving (N j) (T j) draws -> corr_default ev (N j) (T j) draws = Ok ts -> exists r, corr_default_trim ev (N j) (T j) largest shifted draws = Ok r) /\
  forall f, (forall draws, length draws = (N j * T j)%nat -> 0 <= f draws <= 1) ->
    ((forall draws, Moving (N j) (T j) draws -> f draws = failed (corr_default ev (N j) (T j) draws)) -> AverageWithin (N j * T j) f 0 e) /\
    ((forall draws, Moving (N j) (T j) draws -> f draws = of_object (count_le x) (corr_default ev (N j) (T j) draws) / INR m) -> AverageWithin (N j * T j) f (p - e) (p + e)) /\
    ((forall draws, Moving (N j) (T j) draws -> f draws = kept_share m (corr_default_trim ev (N j) (T j) true shifted draws)) -> AverageWithin (N j * T j) f 0 e) /\
    ((forall draws, Moving (N j) (T j) draws -> f draws = kept_share m (corr_default_trim ev (N j) (T j) false shifted draws)) -> AverageWithin (N j * T j) f (1 - e) 1).
Proof.
  intros ev He N T c Hs Hg Hr Hc x p Hp shifted e Hpos. destruct (noise_share c x p Hc Hp) as [Hx ->]. destruct (edges c Hc) as (Hq & El & Eh & Hlo & Hhi). destruct (cdf_ends c Hc) as [F0 _].
  destruct (corr_law ev ZNegative N T c He Hs Hg Hr Hc x (e / 2) Hx ltac:(lra)) as (J1 & L1). destruct (corr_law ev ZNegative N T c He Hs Hg Hr Hc (edge_lo c) (e / 2) ltac:(lra) ltac:(lra)) as (J2 & L2).
  destruct (C162_trim ev ZNegative He N T c Hs Hg Hr Hc shifted (e / 2) ltac:(lra)) as (J3 & L3). exists (J1 + J2 + J3)%nat. intros j Hj m. destruct (Hs j) as [S1 S2].
  destruct (L1 j ltac:(lia)) as (hx & wx & A1 & W1 & B1). destruct (L2 j ltac:(lia)) as (h0 & w0 & A2 & W2 & B2). destruct (L3 j ltac:(lia)) as (_ & B3). clear L1 L2 L3. rewrite F0 in B2. fold m in B1, B2, B3.
  assert (0 < INR m) as Hm by (apply lt_0_INR; unfold m; lia). pose proof (Rinv_0_lt_compat _ Hm) as Hi.
  pose proof (fun z => corr_default_bounds ev (N j) (T j) m shifted z (He _) S1 S2 eq_refl) as Q. cbv zeta in Q.
  set (vals := fun l => vals_of (corr_object ev (N j) (T j) ZNegative l)) in *. set (drop := fun l => count_le 0 (vals l) / INR m).
  assert (forall l, Moving (N j) (T j) l -> length (vals l) = m) as VL.
  { intros l Hl. unfold vals. destruct (corr_spectrum ev (N j) (T j) ZNegative l (He _) S1 S2 Hl) as (ts & -> & Sp & _). apply Sp. }
  assert (forall y l, Moving (N j) (T j) l -> 0 <= count_le y (vals l) / INR m <= 1) as CR.
  { intros y l Hl. apply (count_share _ _ _ (VL l Hl)); [unfold m; lia|]. intro v. destruct (Rle_dec v y); lra. }
  assert (forall y l, count_lt y (vals l) / INR m <= count_le y (vals l) / INR m) as CL by (intros; apply Rmult_le_compat_r; [lra|apply count_lt_le]).
  assert (forall l, length l = (N j * T j)%nat -> Moving (N j) (T j) l -> 0 <= drop l <= h0 l) as D0.
  { intros l Hl Hv. split; [exact (proj1 (CR 0 l Hv))|]. specialize (B2 l Hl (count_le (edge_lo c) (vals l) / INR m) (CR _ l Hv) (fun _ => conj (CL _ l) (Rle_refl _))). apply Rabs_le_between in B2.
    assert (drop l <= count_le (edge_lo c) (vals l) / INR m); [|lra]. unfold drop. apply Rmult_le_compat_r; [lra|]. apply total_le. intro v. destruct (Rle_dec v 0); destruct (Rle_dec v (edge_lo c)); lra. }
  assert (forall l, length l = (N j * T j)%nat -> ~ Moving (N j) (T j) l -> forall v, 0 <= v <= 1 -> v <= h0 l /\ cdf c x - hx l <= v <= cdf c x + hx l) as D1.
  { intros l Hl Hv v R. specialize (B2 l Hl v R (fun X => False_ind _ (Hv X))). specialize (B1 l Hl v R (fun X => False_ind _ (Hv X))). apply Rabs_le_between in B2. apply Rabs_le_between in B1. lra. }
  assert (forall l, length l = (N j * T j)%nat -> Moving (N j) (T j) l -> cdf c x - hx l <= count_le x (vals l) / INR m <= cdf c x + hx l) as D2.
  { intros l Hl Hv. specialize (B1 l Hl (count_le x (vals l) / INR m) (CR _ l Hv) (fun _ => conj (CL _ l) (Rle_refl _))). apply Rabs_le_between in B1. lra. }
  split; [intros largest l ts Hv E; destruct (Q l Hv) as (_ & _ & Q3 & _); exact (Q3 ts largest E)|].
  assert (forall l largest, Moving (N j) (T j) l -> 0 <= kept_share m (corr_trim ev (N j) (T j) ZNegative largest shifted l) <= 1) as KR.
  { intros l largest Hv. unfold corr_trim. pose proof (VL l Hv) as Hl. unfold vals in Hl. destruct (corr_spectrum ev (N j) (T j) ZNegative l (He _) S1 S2 Hv) as (ts & E & Sp & Ha & E1 & E2). rewrite E in *. cbn [bind vals_of] in *. rewrite E1, E2.
    destruct (arr_max_exists (ts_vals ts) ltac:(intro X; rewrite X in Hl; cbn [length] in Hl; unfold m in Hl; lia)) as (mx & Hmx & _). rewrite (mp_value (ts_vals ts) (Z.of_nat (N j)) (Z.of_nat (T j)) mx) by (auto; lia). cbn [kept_share].
    destruct largest; rewrite filter_count; (apply (count_share _ _ _ Hl); [unfold m; lia|]); intro v; match goal with |- context [if ?b then _ else _] => destruct b end; lra. }
  intros f F01. split; [|split; [|split]]; intro FE.
  - exists (fun _ => 0), h0, 0, w0. split; [|split; [apply (navg_const _ 0)|split; [exact A2|lra]]]. intros l Hl. specialize (F01 l Hl). split; [lra|]. apply (by_cases (Moving (N j) (T j) l)); intro Hv.
    + rewrite (FE l Hv). destruct (Q l Hv) as (Q1 & _). specialize (D0 l Hl Hv). unfold drop, vals in D0. lra.
    + apply (D1 l Hl Hv); exact F01.
  - pose proof (navg_lin _ _ _ _ _ 1 (-1) (navg_lin _ _ _ _ _ 1 (-1) (navg_const (N j * T j) (cdf c x)) A1) A2) as R1. pose proof (navg_lin _ _ _ _ _ 1 1 (navg_const (N j * T j) (cdf c x)) A1) as R2.
    eexists _, _, _, _. split; [|split; [exact R1|split; [exact R2|lra]]]. intros l Hl. cbv beta. specialize (F01 l Hl). split; apply (by_cases (Moving (N j) (T j) l)); intro Hv.
    + rewrite (FE l Hv). destruct (Q l Hv) as (_ & Q2 & _). rewrite (Q2 x ltac:(lra)). specialize (D0 l Hl Hv). specialize (D2 l Hl Hv). unfold drop, vals in D0. unfold vals in D2. lra.
    + destruct (D1 l Hl Hv (f l) F01) as [X1 X2]. lra.
    + rewrite (FE l Hv). destruct (Q l Hv) as (_ & Q2 & _). rewrite (Q2 x ltac:(lra)). specialize (D0 l Hl Hv). specialize (D2 l Hl Hv). unfold drop, vals in D0. unfold vals in D2. lra.
    + destruct (D1 l Hl Hv (f l) F01) as [X1 X2]. lra.
  - destruct (B3 (fun l => Rmax (f l) (clip (kept_share m (corr_trim ev (N j) (T j) ZNegative true shifted l))))) as (X & _).
    { intros l Hl. specialize (F01 l Hl). pose proof (clip_range (kept_share m (corr_trim ev (N j) (T j) ZNegative true shifted l))). apply Rmax_case; lra. }
    destruct X as (g & h & a & b & G1 & G2 & G3 & G4).
    + intros l Hv. cbv beta. rewrite (clip_id _ (KR l true Hv)). apply Rmax_right. rewrite (FE l Hv). destruct (Q l Hv) as (_ & _ & _ & Q4). apply Q4.
    + exists (fun _ => 0), h, 0, b. split; [|split; [apply (navg_const _ 0)|split; [exact G3|lra]]]. intros l Hl. specialize (F01 l Hl). specialize (G1 l Hl). cbv beta in G1. pose proof (Rmax_l (f l) (clip (kept_share m (corr_trim ev (N j) (T j) ZNegative true shifted l)))). lra.
  - destruct (B3 (fun l => Rmin (clip (kept_share m (corr_trim ev (N j) (T j) ZNegative false shifted l))) (f l + clip (drop l)))) as (_ & X).
    { intros l Hl. specialize (F01 l Hl). pose proof (clip_range (drop l)). pose proof (clip_range (kept_share m (corr_trim ev (N j) (T j) ZNegative false shifted l))) as K. split; [apply Rmin_case; lra|]. eapply Rle_trans; [apply Rmin_l|lra]. }
    destruct X as (g & h & a & b & G1 & G2 & G3 & G4).
    + intros l Hv. cbv beta. rewrite (clip_id _ (KR l false Hv)), (clip_id (drop l) (CR 0 l Hv)). apply Rmin_left. rewrite (FE l Hv). destruct (Q l Hv) as (_ & _ & _ & Q4). destruct (Q4 false) as (Q5 & _). unfold drop, vals. lra.
    + eexists _, (fun _ => 1), _, 1. split; [|split; [exact (navg_lin _ _ _ _ _ 1 (-1) G2 A2)|split; [apply (navg_const _ 1)|lra]]]. intros l Hl. cbv beta. specialize (F01 l Hl). split; [|lra]. specialize (G1 l Hl). cbv beta in G1.
      pose proof (Rmin_r (clip (kept_share m (corr_trim ev (N j) (T j) ZNegative false shifted l))) (f l + clip (drop l))) as MR.
      assert (clip (drop l) <= h0 l); [|lra]. apply (by_cases (Moving (N j) (T j) l)); intro Hv; [rewrite (clip_id (drop l) (CR 0 l Hv)); apply D0; assumption|]. apply (D1 l Hl Hv), clip_range.
Qed.
Print Assumptions C162_default.

(** Twice as many time points as series, at the upper end of the law: the hypotheses are met. *)
Example C162_default_ex : exists J, forall j, (J <= j)%nat ->
  AverageWithin ((j + 2) * (2 * (j + 2))) (fun draws => clip (failed (corr_default any_solver (j + 2) (2 * (j + 2)) draws))) 0 (1 / 100).
Proof.
  destruct twice_lim as [L1 L2]. set (x := (1 + sqrt (1 / 2)) ^ 2). assert (NoiseShare (1 / 2) x 1) as NS by (left; split; [lra|]; split; [unfold x; pose proof (sqrt_pos (1 / 2)); cbn [pow]; nra|apply density_total; lra]).
  destruct (C162_default any_solver any_solver_ok (fun j => (j + 2)%nat) (fun j => (2 * (j + 2))%nat) (1 / 2) ltac:(intro; cbv beta; lia) L1 L2 ltac:(lra) x 1 NS true (1 / 100) ltac:(lra)) as (J & H).
  exists J. intros j Hj. destruct (H j Hj) as (_ & H2). refine (proj1 (H2 _ _) _); [intros; apply clip_range|]. intros l _. apply clip_id. destruct (corr_default _ _ _ _); cbn; lra.
Qed.
