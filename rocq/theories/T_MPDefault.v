(** Property C159, default arguments: from_time_series with its zero trimming, then trim_marchenko_pastur. *)
From Coq Require Import List ZArith Bool Arith Lia Reals Lra Sorting.Permutation.
From Coquelicot Require Import Coquelicot.
From Verif Require Import Base S_Order S_Generate S_Normal S_Rotate S_Moments S_Law S_MP S_Series S_Cov M_EigVals M_Series M_Cov P_Order P_EigVals P_Series P_TrimStat P_Cov P_Generate P_Surmise P_Rotate T_Rotate P_Moments P_Wishart T_Units T_Wishart P_Law P_LawUnfold T_Law P_MPLoop P_MP P_MPLaw T_MP.
Import ListNotations.
Local Open Scope R_scope.
Local Notation length := List.length.
Local Notation total := S_Rotate.total.

(** from_time_series(data, covariance=True, trim_zeros=True, zeros="negative", time_axis=1), and trim_marchenko_pastur() of its value. *)
Definition default_object (ev : ndarray R -> result (list R)) (n t : nat) (draws : list R) : result (tsobj R) :=
  series_object sqrt ev (mkarr [n; t] draws) true true ZNegative 1.
Definition default_trim (ev : ndarray R -> result (list R)) (n t : nat) (largest shifted : bool) (draws : list R) : result (list R * (R * R)) :=
  let! o := default_object ev n t draws in trim_marchenko_pastur sqrt (ts_vals o) (Some (Z.of_nat (ts_N o))) (Some (Z.of_nat (ts_T o))) None None largest shifted.
Definition failed {A} (r : result A) : R := match r with Ok _ => 0 | Raise _ => 1 end.

Local Notation pos := (fun v : R => nlt 0 v).
Lemma filter_perm {A} (f : A -> bool) l l' : Permutation l l' -> Permutation (filter f l) (filter f l').
Proof. induction 1; cbn; repeat match goal with |- context [f ?x] => destruct (f x) end; eauto using Permutation. Qed.
Lemma default_values ev n t z : Diagonalises (Nat.min n t) ev -> (2 <= n)%nat -> (2 <= t)%nat ->
  exists ts, noise_object ev n t ZNegative z = Ok ts /\
    ((filter pos (ts_vals ts) = [] /\ exists x, default_object ev n t z = Raise x) \/
     (filter pos (ts_vals ts) <> [] /\ exists ts', default_object ev n t z = Ok ts' /\ ts_vals ts' = filter pos (ts_vals ts) /\ ts_N ts' = n /\ ts_T ts' = t)).
Proof.
  intros He Hn Ht. destruct (He (handed true n t (flat t z)) (handed_symmetric n t (flat t z) (Nat.min n t))) as (lam & El & Hs).
  pose proof (solved ev n t z true ltac:(lia) ltac:(lia) (or_introl eq_refl)) as Hsol. rewrite El in Hsol.
  unfold noise_object, default_object, series_object, from_time_series. cbn [shape data negb Z.eqb Pos.eqb orb]. rewrite Hsol. cbn [bind zero_trim negb].
  assert (length lam = Nat.min n t) as Hl by apply Hs. destruct lam as [|h lam]; [cbn [length] in Hl; lia|]. set (l := h :: lam) in *. destruct (arr_max_exists l ltac:(discriminate)) as (mx & _ & Em). rewrite Em. cbn [bind]. destruct (Nat.eqb_spec t 0) as [|_]; [lia|].
  eexists. split; [reflexivity|]. cbn [ts_vals].
  assert (Permutation (filter pos l) (filter pos (np_sort l))) as HP by (apply filter_perm, np_sort_perm).
  change (filter (fun e => ngt e n0) l) with (filter pos l).
  destruct (list_eq_dec Req_EM_T (filter pos l) []) as [E|E].
  - left. split; [rewrite E in HP; now apply Permutation_nil in HP|]. rewrite E. cbn [arr_max bind]. eauto.
  - right. split; [intro E'; rewrite E' in HP; apply Permutation_sym, Permutation_nil in HP; auto|]. destruct (arr_max_exists _ E) as (my & _ & Ey). rewrite Ey. cbn [bind]. eexists. split; [reflexivity|]. cbn [ts_vals ts_N ts_T].
    split; [|auto]. rewrite (np_sort_perm_R _ _ HP). apply sort_filter_sorted. apply np_sort_ascending, notnan_R.
Qed.
Lemma count_split x l : 0 <= x -> count_le x (filter pos l) = count_le x l - count_le 0 l.
Proof.
  intro Hx. unfold count_le, total. induction l as [|v l IH]; cbn [filter map fold_right]; [ring|]. destruct (nlt 0 v) eqn:E; [apply nlt_R in E|apply nlt_R_false in E]; cbn [map fold_right]; rewrite ?IH.
  - destruct (Rle_dec v x); destruct (Rle_dec v 0); lra.
  - destruct (Rle_dec v x); destruct (Rle_dec v 0); lra.
Qed.
Lemma count_none l : filter pos l = [] -> count_le 0 l = INR (length l).
Proof.
  intro H. unfold count_le. rewrite <- total_one. unfold total. induction l as [|v l IH]; [reflexivity|]. cbn [filter] in H. destruct (nlt 0 v) eqn:E; [discriminate|]. apply nlt_R_false in E. cbn [map fold_right]. rewrite IH by exact H. destruct (Rle_dec v 0); lra.
Qed.
Lemma filter_drop (f : R -> bool) l : INR (length (filter f l)) - count_le 0 l <= INR (length (filter f (filter pos l))) <= INR (length (filter f l)).
Proof.
  rewrite !filter_count. unfold count_le, total. induction l as [|v l IH]; cbn [filter map fold_right]; [lra|]. destruct (nlt 0 v) eqn:E; [apply nlt_R in E|apply nlt_R_false in E]; cbn [map fold_right]; destruct (f v); destruct (Rle_dec v 0); lra.
Qed.
(** The two ways of trimming compared, for one spectrum. *)
Lemma default_bounds ev n t k shifted z : Diagonalises (Nat.min n t) ev -> (2 <= n)%nat -> (2 <= t)%nat -> Nat.min n t = k ->
  let vals := vals_of (noise_object ev n t ZNegative z) in let drop := count_le 0 vals / INR k in
  failed (default_object ev n t z) <= drop /\
  (forall x, 0 <= x -> of_object (count_le x) (default_object ev n t z) / INR k = count_le x vals / INR k - drop) /\
  (forall ts largest, default_object ev n t z = Ok ts -> exists r, default_trim ev n t largest shifted z = Ok r) /\
  forall largest, kept_share k (noise_trim ev n t ZNegative largest shifted z) - drop <= kept_share k (default_trim ev n t largest shifted z) /\
    0 <= kept_share k (default_trim ev n t largest shifted z) <= kept_share k (noise_trim ev n t ZNegative largest shifted z).
Proof.
  intros He Hn Ht Hk vals drop. destruct (noise_spectrum ev n t ZNegative z He Hn Ht) as (ts & E & Hs & Ha & E1 & E2). destruct (default_values ev n t z He Hn Ht) as (ts0 & E0 & D). rewrite E in E0. injection E0 as <-.
  assert (0 < INR k) as Hp by (apply lt_0_INR; lia). assert (length (ts_vals ts) = k) as Hl by (rewrite Hk in Hs; apply Hs). unfold drop, vals in *. clear vals drop. rewrite E. cbn [vals_of]. set (vals := ts_vals ts) in *.
  pose proof (count_le_range 0 vals) as C0. rewrite Hl in C0. pose proof (Rinv_0_lt_compat _ Hp) as Hi.
  assert (vals <> []) as Hne by (intro H; rewrite H in Hl; cbn in Hl; lia). destruct (arr_max_exists vals Hne) as (m & Hm & _).
  assert (forall largest, exists f, noise_trim ev n t ZNegative largest shifted z = Ok (filter f vals, (MPLower (mp_scale shifted m (Z.of_nat n)) (Z.of_nat n) (Z.of_nat t), MPUpper (mp_scale shifted m (Z.of_nat n)) (Z.of_nat n) (Z.of_nat t))) /\
    (filter pos vals <> [] -> exists p, default_trim ev n t largest shifted z = Ok (filter f (filter pos vals), p))) as Q.
  { intro largest. unfold noise_trim. rewrite E. cbn [bind]. rewrite E1, E2. fold vals.
    exists (if largest then (fun v => nlt (MPUpper (mp_scale shifted m (Z.of_nat n)) (Z.of_nat n) (Z.of_nat t)) v) else (fun v => nlt (MPLower (mp_scale shifted m (Z.of_nat n)) (Z.of_nat n) (Z.of_nat t)) v && nlt v (MPUpper (mp_scale shifted m (Z.of_nat n)) (Z.of_nat n) (Z.of_nat t)))).
    rewrite (mp_value vals (Z.of_nat n) (Z.of_nat t) m) by (auto; lia). split; [destruct largest; reflexivity|]. intro Hf. destruct D as [[D _]|(_ & ts' & D1 & D2 & D3 & D4)]; [contradiction|].
    unfold default_trim. rewrite D1. cbn [bind]. rewrite D2, D3, D4. fold vals.
    assert (Largest (filter pos vals) m) as Hm'.
    { destruct (filter pos vals) as [|y r] eqn:Ef; [contradiction|]. assert (In y (filter pos vals)) as Hy by (rewrite Ef; now left). apply filter_In in Hy. destruct Hy as [Hy1 Hy2]. apply nlt_R in Hy2. rewrite <- Ef. split.
      - apply filter_In. split; [apply Hm|]. apply nlt_R. pose proof (proj2 Hm y Hy1). lra.
      - intros x Hx. apply filter_In in Hx. apply Hm, Hx. }
    rewrite (mp_value (filter pos vals) (Z.of_nat n) (Z.of_nat t) m); [destruct largest; eauto| |exact Hm'|lia|reflexivity|reflexivity]. apply SS_filter. exact Ha. }
  split; [|split; [|split]].
  - destruct D as [[D (x & Dx)]|(D & ts' & D1 & _)].
    + rewrite Dx. cbn [failed]. rewrite (count_none _ D). fold vals. rewrite Hl. unfold Rdiv. rewrite Rinv_r by lra. lra.
    + rewrite D1. cbn [failed]. unfold Rdiv. apply Rmult_le_pos; lra.
  - intros x Hx. destruct D as [[D (y & Dy)]|(D & ts' & D1 & D2 & _)].
    + rewrite Dy. cbn [of_object]. pose proof (count_split x vals Hx) as CS. fold vals in D. rewrite D in CS. change (count_le x []) with 0 in CS. unfold Rdiv. replace (count_le x vals) with (count_le 0 vals) by lra. ring.
    + rewrite D1. cbn [of_object]. rewrite D2. fold vals. rewrite count_split by exact Hx. unfold Rdiv. ring.
  - intros ts1 largest D1. destruct (Q largest) as (f & _ & Q2). destruct D as [[_ (x & Dx)]|(D & _)]; [congruence|]. destruct (Q2 D) as (p & ->). eauto.
  - intro largest. destruct (Q largest) as (f & Q1 & Q2). rewrite Q1. cbn [kept_share]. pose proof (filter_drop f vals) as [F1 F2]. pose proof (pos_INR (length (filter f vals))) as P1.
    destruct D as [[D (x & Dx)]|(D & _)].
    + unfold default_trim. rewrite Dx. cbn [bind kept_share]. fold vals in D. rewrite D in F1, F2. cbn [filter length INR] in F1, F2. assert (INR (length (filter f vals)) / INR k - count_le 0 vals / INR k = (INR (length (filter f vals)) - count_le 0 vals) / INR k) as -> by (unfold Rdiv; ring).
      split; [|split; [lra|unfold Rdiv; apply Rmult_le_pos; lra]]. unfold Rdiv. assert (0 <= (count_le 0 vals - INR (length (filter f vals))) * / INR k) by (apply Rmult_le_pos; lra). lra.
    + destruct (Q2 D) as (p & ->). cbn [kept_share]. pose proof (pos_INR (length (filter f (filter pos vals)))) as P2. unfold Rdiv. split; [|split].
      * apply (Rmult_le_compat_r (/ INR k)) in F1; lra.
      * apply Rmult_le_pos; lra.
      * apply Rmult_le_compat_r; lra.
Qed.

(** C159. The default call: it fails, for want of a positive eigenvalue, on a vanishing share of the data; the share of the n eigenvalues
    that are returned and at most x tends to the area of the law below x; and the trimming keeps a vanishing share as the largest ones
    and almost all as noise. *)
Theorem C159_default : forall ev, (forall m, Diagonalises m ev) -> forall N T (c : R), (forall j, 2 <= N j <= T j)%nat ->
  is_lim_seq (fun j => INR (N j)) p_infty -> is_lim_seq (fun j => INR (N j) / INR (T j)) c -> 0 < c < 1 ->
  let lo := (1 - sqrt c) ^ 2 in let hi := (1 + sqrt c) ^ 2 in forall x p, lo <= x <= hi -> is_RInt (MPDensity c lo hi) lo x p -> forall shifted e, 0 < e -> exists J, forall j, (J <= j)%nat ->
  AverageWithin (N j * T j) (fun draws => failed (default_object ev (N j) (T j) draws)) 0 e /\
  AverageWithin (N j * T j) (fun draws => of_object (count_le x) (default_object ev (N j) (T j) draws) / INR (N j)) (p - e) (p + e) /\
  (forall largest draws ts, default_object ev (N j) (T j) draws = Ok ts -> exists r, default_trim ev (N j) (T j) largest shifted draws = Ok r) /\
  AverageWithin (N j * T j) (fun draws => kept_share (N j) (default_trim ev (N j) (T j) true shifted draws)) 0 e /\
  AverageWithin (N j * T j) (fun draws => kept_share (N j) (default_trim ev (N j) (T j) false shifted draws)) (1 - e) 1.
Proof.
  intros ev He N T c Hs Hg Hr Hc lo hi x p Hx Hp shifted e Hpos. destruct (q_range c Hc) as [Hq Eq]. pose proof (gap_pos c Hc) as G. assert (0 < lo) as Hlo by (replace lo with ((1 - sqrt c) * (1 - sqrt c)) by (unfold lo; ring); exact G).
  assert (lo <= lo <= hi) as Hll by lra. assert (is_RInt (MPDensity c lo hi) lo lo 0) as H0 by apply (is_RInt_point (V := R_NormedModule)).
  destruct (C159_law ev ZNegative He N T c Hs Hg Hr Hc x p Hx Hp (e / 2) ltac:(lra)) as (J1 & L1). destruct (C159_law ev ZNegative He N T c Hs Hg Hr Hc lo 0 Hll H0 (e / 2) ltac:(lra)) as (J2 & L2).
  destruct (C159_trim ev ZNegative He N T c Hs Hg Hr Hc shifted (e / 2) ltac:(lra)) as (J3 & L3). exists (J1 + J2 + J3)%nat. intros j Hj. pose proof (Hs j) as S.
  destruct (L1 j ltac:(lia)) as ((gx & hx & ax & bx & B1 & B2 & B3 & B4 & B5) & _). destruct (L2 j ltac:(lia)) as ((g0 & h0 & a0 & b0 & D1 & _ & D3 & _ & D5) & _). destruct (L3 j ltac:(lia)) as (_ & (gs & hs & as_ & bs & S1 & _ & S3 & _ & S5) & (gn & hn & an & bn & M1 & M2 & _ & M4 & _)).
  pose proof (fun z => default_bounds ev (N j) (T j) (N j) shifted z (He _) ltac:(lia) ltac:(lia) ltac:(lia)) as Q. cbv zeta in Q.
  assert (0 < INR (N j)) as Hn by (apply lt_0_INR; lia). pose proof (Rinv_0_lt_compat _ Hn) as Hi.
  assert (forall f l, f (vals_of (noise_object ev (N j) (T j) ZNegative l)) = of_object f (noise_object ev (N j) (T j) ZNegative l)) as EQ.
  { intros f l. destruct (lam_facts ev ZNegative N T He Hs j l) as (ts & -> & _). reflexivity. }
  assert (forall l, length l = (N j * T j)%nat -> 0 <= count_le 0 (vals_of (noise_object ev (N j) (T j) ZNegative l)) / INR (N j) <= h0 l) as DR.
  { intros l Hl. split; [unfold Rdiv; apply Rmult_le_pos; [apply count_le_range|lra]|]. refine (Rle_trans _ _ _ _ (proj2 (D1 l Hl))). rewrite <- EQ. unfold Rdiv. apply Rmult_le_compat_r; [lra|].
    unfold count_le. apply total_le. intro v. destruct (Rle_dec v 0); destruct (Rle_dec v lo); lra. }
  split; [|split; [|split; [|split]]].
  - exists (fun _ => 0), h0, 0, b0. split; [|split; [apply (navg_const _ 0)|split; [exact D3|lra]]]. intros l Hl. destruct (Q l) as (Q1 & _). specialize (DR l Hl). split; [destruct (default_object _ _ _ _); cbn; lra|lra].
  - eexists _, hx, _, bx. split; [|split; [exact (navg_lin _ _ _ _ _ 1 (-1) B2 D3)|split; [exact B3|lra]]]. intros l Hl. cbv beta. destruct (Q l) as (_ & Q2 & _). rewrite (Q2 x ltac:(lra)), (EQ (count_le x)). specialize (B1 l Hl). specialize (DR l Hl). lra.
  - intros largest l ts E. destruct (Q l) as (_ & _ & Q3 & _). exact (Q3 ts largest E).
  - exists (fun _ => 0), hs, 0, bs. split; [|split; [apply (navg_const _ 0)|split; [exact S3|lra]]]. intros l Hl. destruct (Q l) as (_ & _ & _ & Q4). specialize (Q4 true). specialize (S1 l Hl). lra.
  - eexists _, (fun _ => 1), _, 1. split; [|split; [exact (navg_lin _ _ _ _ _ 1 (-1) M2 D3)|split; [apply (navg_const _ 1)|lra]]]. intros l Hl. cbv beta. destruct (Q l) as (_ & _ & _ & Q4). specialize (Q4 false). specialize (M1 l Hl). specialize (DR l Hl). split; [lra|].
    destruct Q4 as (_ & _ & Q5). apply (Rle_trans _ _ _ Q5). destruct (lam_facts ev ZNegative N T He Hs j l) as (ts & E & Ha & Hl' & E1 & E2). unfold noise_trim. rewrite E. cbn [bind]. rewrite E1, E2.
    destruct (trim_marchenko_pastur _ _ _ _ _ _ _ _) as [[k b]|] eqn:Et; [|cbn; lra]. cbn [kept_share].
    destruct (arr_max_exists (ts_vals ts) ltac:(intro H; rewrite H in Hl'; cbn in Hl'; lia)) as (m & Hm & _). rewrite (mp_value (ts_vals ts) (Z.of_nat (N j)) (Z.of_nat (T j)) m) in Et by (auto; lia). injection Et as <- _.
    assert (forall f : R -> bool, INR (length (filter f (ts_vals ts))) / INR (N j) <= 1) as F.
    { intro f. rewrite filter_count. apply (Rmult_le_reg_r (INR (N j))); [exact Hn|]. unfold Rdiv. rewrite Rmult_assoc, Rinv_l, Rmult_1_r, Rmult_1_l by lra. rewrite <- Hl'. apply total_range. intro v. destruct (f v); lra. }
    apply F.
Qed.
Print Assumptions C159_default.

(** The hypotheses are met by the solver and the sizes of C159_ex. *)
Example C159_default_ex : exists J, forall j, (J <= j)%nat ->
  AverageWithin ((j + 2) * (2 * (j + 2))) (fun draws => failed (default_object any_solver (j + 2) (2 * (j + 2)) draws)) 0 (1 / 100) /\
  AverageWithin ((j + 2) * (2 * (j + 2))) (fun draws => kept_share (j + 2) (default_trim any_solver (j + 2) (2 * (j + 2)) true true draws)) 0 (1 / 100).
Proof.
  assert (forall j, 2 <= j + 2 <= 2 * (j + 2))%nat as S by (intro; lia). destruct twice_lim as [L1 L2].
  destruct (C159_default any_solver any_solver_ok (fun j => (j + 2)%nat) (fun j => (2 * (j + 2))%nat) (1 / 2) S L1 L2 ltac:(lra) ((1 + sqrt (1 / 2)) ^ 2) 1) with (shifted := true) (e := 1 / 100) as (J & H).
  - pose proof (sqrt_pos (1 / 2)). split; [|lra]. cbn [pow]. nra.
  - apply density_total. lra.
  - lra.
  - exists J. intros j Hj. destruct (H j Hj) as (H1 & _ & _ & H2 & _). auto.
Qed.
