(** Property C140: the unit of the data in [from_time_series] and Marchenko-Pastur trimming. *)
From Coq Require Import List ZArith Bool Arith Lia Reals Lra Sorting.Sorted Sorting.Permutation.
From Verif Require Import Base S_Order S_EigVals S_Series S_Cov M_EigVals M_Series M_Cov P_Order P_Step P_EigVals P_TrimStat P_TrimFull P_Series P_Cov T_Series T_Cov.
Import ListNotations.
Local Open Scope R_scope.

(** The flat data of the 2-D array whose entry in row [i] and column [k] is [x i k]. *)
Definition table (n t : nat) (x : nat -> nat -> R) : list R := flat_map (fun i => map (x i) (seq 0 t)) (seq 0 n).
Lemma table_ext n t x y : (forall i k, (i < n)%nat -> (k < t)%nat -> x i k = y i k) -> table n t x = table n t y.
Proof.
  intro H. unfold table. rewrite !flat_map_concat_map. f_equal. apply map_ext_in. intros i Hi. apply map_ext_in. intros k Hk.
  apply in_seq in Hi. apply in_seq in Hk. apply H; lia.
Qed.
Lemma table_scale n t x s : map (Rmult s) (table n t x) = table n t (fun i k => s * x i k).
Proof.
  unfold table. rewrite !flat_map_concat_map, concat_map, map_map. f_equal. apply map_ext. intro i. rewrite map_map. reflexivity.
Qed.
Lemma table_flat n t x i k : (i < n)%nat -> (k < t)%nat -> flat t (table n t x) i k = x i k.
Proof. intros. unfold flat, table. now apply nth_table. Qed.

(** The entry handed to the solver. *)
Definition handed (cov : bool) (n t : nat) (x : nat -> nat -> R) (i j : nat) : R :=
  if Nat.leb n t then (if cov then SampleCov x t i j else Pearson x t i j)
  else Sum (fun s => if cov then Dev x t s i * Dev x t s j else Standard x t s i * Standard x t s j) n / (INR t - 1).
Lemma list_table (l : list R) m f : length l = (m * m)%nat -> (forall i j, (i < m)%nat -> (j < m)%nat -> nth (i * m + j) l 0 = f i j) -> l = table m m f.
Proof.
  intros Hl H. assert (length (table m m f) = (m * m)%nat) as Ht. { unfold table. rewrite (flat_map_const_len _ m); [now rewrite seq_length|]. intro. now rewrite map_length, seq_length. }
  apply (nth_ext _ _ 0 0); [congruence|]. intros p Hp. rewrite Hl in Hp. assert (m <> 0)%nat by (intros ->; cbn in Hp; lia).
  rewrite (Nat.div_mod p m) by assumption. rewrite (Nat.mul_comm m). assert (p / m < m)%nat by (apply Nat.div_lt_upper_bound; lia). assert (p mod m < m)%nat by now apply Nat.mod_upper_bound.
  rewrite H by assumption. unfold table. now rewrite nth_table.
Qed.
Lemma solved ev n t d cov : (1 < n)%nat -> (1 < t)%nat -> (cov = true \/ forall i, (i < n)%nat -> Varies (flat t d) t i) ->
  (if Nat.leb n t then direct_eigs sqrt ev n t d cov else transposed_eigs sqrt ev n t d cov) =
  ev (mkarr [Nat.min n t; Nat.min n t] (table (Nat.min n t) (Nat.min n t) (handed cov n t (flat t d)))).
Proof.
  intros Hn Ht Hv. unfold handed. destruct (Nat.leb_spec n t) as [Hle|Hgt].
  - rewrite Nat.min_l by exact Hle. unfold direct_eigs. destruct cov.
    + cbn [bind]. f_equal. pose proof (cov_shape n t d Hn) as S. destruct (np_cov n t 1 d) as [s l] eqn:E. cbn in S. subst s. f_equal.
      apply list_table.
      * unfold np_cov in E. destruct (Nat.eqb_spec n 0) as [|_]; [lia|]. injection E as _ <-. rewrite (flat_map_const_len _ n); [now rewrite seq_length|]. intro. now rewrite map_length, seq_length.
      * intros i j Hi Hj. pose proof (cov_entry n t d i j Hn Ht Hi Hj) as G. rewrite E in G. exact G.
    + destruct (corr_entries n t d) as (m & Em & Sm & Dm); [lia|lia|destruct Hv as [Hv|Hv]; [discriminate|exact Hv]|]. rewrite Em. cbn [bind]. f_equal.
      destruct m as [s l]. cbn in Sm, Dm. subst s. f_equal. apply list_table; [|exact Dm].
      unfold correlate_fast in Em. rewrite (cov_shape n t d Hn) in Em. injection Em as <-. rewrite (flat_map_const_len _ n); [now rewrite seq_length|]. intro. now rewrite map_length, seq_length.
  - rewrite Nat.min_r by lia. destruct (transposed_entries (fun m => Ok (data m)) n t d cov Hgt Ht) as (m & Em & Sm & Dm).
    unfold transposed_eigs in *. destruct (Nat.leb_spec n t) as [|_]; [lia|]. destruct (Nat.eqb_spec t 1) as [|_]; [lia|]. f_equal. f_equal. cbn in Em. injection Em as Em. transitivity (data m); [exact Em|].
    apply list_table; [|exact Dm]. rewrite <- Em. rewrite (flat_map_const_len _ t); [now rewrite seq_length|]. intro. now rewrite map_length, seq_length.
Qed.

(** Affine changes of the series. *)
Lemma Sum_aff f c e n : Sum (fun k => c * f k + e) n = c * Sum f n + e * INR n.
Proof. induction n as [|n IH]; [cbn; ring|]. rewrite S_INR. cbn [Sum]. rewrite IH. ring. Qed.
Lemma Dev_aff x a b t i k : (0 < t)%nat -> Dev (fun i k => a i * x i k + b i) t i k = a i * Dev x t i k.
Proof. intro Ht. unfold Dev, Mean. rewrite (Sum_aff (x i)). field. now apply not_0_INR, Nat.neq_0_lt_0. Qed.
Lemma Cov_aff x a b t i j : (0 < t)%nat -> SampleCov (fun i k => a i * x i k + b i) t i j = a i * a j * SampleCov x t i j.
Proof.
  intro Ht. unfold SampleCov. rewrite (Sum_ext _ (fun k => a i * a j * (Dev x t i k * Dev x t j k))).
  - rewrite Sum_scal. unfold Rdiv. ring.
  - intros k _. rewrite !Dev_aff by exact Ht. ring.
Qed.
Lemma Varies_aff x a b t i : a i <> 0 -> Varies x t i -> Varies (fun i k => a i * x i k + b i) t i.
Proof. intros Ha (k & l & Hk & Hl & Hne). exists k, l. split; [exact Hk|]. split; [exact Hl|]. intro E. apply Hne. apply (Rmult_eq_reg_l (a i)); [lra|exact Ha]. Qed.

(** C140. Correlations: another unit and origin for every series changes nothing, so neither does anything computed from the result. *)
Theorem C140_correlations : forall (ev : ndarray R -> result (list R)) n t x a b trim zeros,
  (2 <= n)%nat -> (2 <= t)%nat -> (forall i, (i < n)%nat -> 0 < a i) -> (forall i, (i < n)%nat -> Varies x t i) ->
  series_object sqrt ev (mkarr [n; t] (table n t (fun i k => a i * x i k + b i))) false trim zeros 1 =
  series_object sqrt ev (mkarr [n; t] (table n t x)) false trim zeros 1.
Proof.
  intros ev n t x a b trim zeros Hn Ht Ha Hv. unfold series_object, from_time_series. cbn [shape data negb Z.eqb Pos.eqb orb].
  set (y := fun i k => a i * x i k + b i).
  assert (forall z, (forall i, (i < n)%nat -> Varies z t i) -> forall i, (i < n)%nat -> Varies (flat t (table n t z)) t i) as HV.
  { intros z Hz i Hi. destruct (Hz i Hi) as (k & l & Hk & Hl & Hne). exists k, l. rewrite !table_flat by assumption. auto. }
  assert (forall i, (i < n)%nat -> Varies y t i) as Hy by (intros i Hi; apply Varies_aff; [specialize (Ha i Hi); lra|auto]).
  rewrite !solved by (try lia; right; apply HV; assumption).
  assert (forall i k, (i < n)%nat -> (k < t)%nat -> Dev (flat t (table n t y)) t i k = a i * Dev (flat t (table n t x)) t i k) as HD.
  { intros i k Hi Hk. rewrite (Dev_ext (flat t (table n t y)) y), (Dev_ext (flat t (table n t x)) x) by (try assumption; intros; now apply table_flat). apply Dev_aff. lia. }
  assert (forall i j, (i < n)%nat -> (j < n)%nat -> SampleCov (flat t (table n t y)) t i j = a i * a j * SampleCov (flat t (table n t x)) t i j) as HC.
  { intros i j Hi Hj. rewrite (SampleCov_ext (flat t (table n t y)) y), (SampleCov_ext (flat t (table n t x)) x) by (intros; now apply table_flat). apply Cov_aff. lia. }
  assert (forall i, (i < n)%nat -> sqrt (SampleCov (flat t (table n t y)) t i i) = a i * sqrt (SampleCov (flat t (table n t x)) t i i) /\ 0 < sqrt (SampleCov (flat t (table n t x)) t i i)) as HS.
  { intros i Hi. pose proof (cov_pos _ t i ltac:(lia) (HV x Hv i Hi)) as Hp. rewrite HC, sqrt_mult by (try assumption; specialize (Ha i Hi); nra). rewrite sqrt_square by (specialize (Ha i Hi); lra).
    split; [reflexivity|now apply sqrt_lt_R0]. }
  rewrite (table_ext _ _ (handed false n t (flat t (table n t y))) (handed false n t (flat t (table n t x)))); [reflexivity|].
  intros i j Hi Hj. unfold handed. destruct (Nat.leb_spec n t) as [Hle|Hgt].
  - rewrite Nat.min_l in Hi, Hj by exact Hle. unfold Pearson. destruct (HS i Hi) as [-> Pi]. destruct (HS j Hj) as [-> Pj]. rewrite HC by assumption.
    pose proof (Ha i Hi). pose proof (Ha j Hj). field. repeat split; lra.
  - rewrite Nat.min_r in Hi, Hj by lia. f_equal. apply Sum_ext. intros s Hs. unfold Standard. destruct (HS s Hs) as [-> Ps]. rewrite !HD by assumption. pose proof (Ha s Hs). field. split; lra.
Qed.
Print Assumptions C140_correlations.

(** The eigenvalues of a positive multiple of a matrix are that multiple of its eigenvalues. *)
Definition Homogeneous (ev : ndarray R -> result (list R)) : Prop :=
  forall s sh l e, 0 < s -> ev (mkarr sh l) = Ok e -> ev (mkarr sh (map (Rmult s) l)) = Ok (map (Rmult s) e).
Lemma filter_scale (s c : R) l : 0 < s -> filter (fun e => ngt e (s * c)) (map (Rmult s) l) = map (Rmult s) (filter (fun e => ngt e c) l).
Proof.
  intro Hs. induction l as [|x l IH]; [reflexivity|]. cbn [map filter]. rewrite IH. unfold ngt.
  destruct (nlt c x) eqn:E; [apply nlt_R in E|apply nlt_R_false in E].
  - assert (nlt (s * c) (s * x) = true) as -> by (apply nlt_R; nra). reflexivity.
  - assert (nlt (s * c) (s * x) = false) as -> by (apply nlt_R_false; nra). reflexivity.
Qed.
Lemma Largest_scale s l m : 0 < s -> Largest l m -> Largest (map (Rmult s) l) (s * m).
Proof. intros Hs [H1 H2]. split; [now apply in_map|]. intros y Hy. apply in_map_iff in Hy. destruct Hy as (x & <- & Hx). specialize (H2 x Hx). nra. Qed.
Lemma Smallest_scale s l m : 0 < s -> Smallest l m -> Smallest (map (Rmult s) l) (s * m).
Proof. intros Hs [H1 H2]. split; [now apply in_map|]. intros y Hy. apply in_map_iff in Hy. destruct Hy as (x & <- & Hx). specialize (H2 x Hx). nra. Qed.
Lemma zero_trim_scale s trim zeros e k : 0 < s -> zeros = ZHeuristic \/ zeros = ZNegative -> zero_trim trim zeros e = Ok k -> zero_trim trim zeros (map (Rmult s) e) = Ok (map (Rmult s) k).
Proof.
  intros Hs Hz. unfold zero_trim. destruct trim; [cbn [negb]|intros [= <-]; reflexivity]. destruct Hz as [->| ->].
  - destruct (list_eq_dec Req_EM_T e []) as [->|Hne]; [discriminate|]. destruct (arr_min_exists e Hne) as (m & Hm & Em). rewrite Em. rewrite (arr_min_R _ _ (Smallest_scale s _ _ Hs Hm)).
    cbn [bind]. intros [= <-]. cbn [nle n0 nmul nofZ Num_R]. destruct (Rle_dec m 0), (Rle_dec (s * m) 0); try nra.
    + replace (-100 * (s * m)) with (s * (-100 * m)) by ring. f_equal. now apply filter_scale.
    + pose proof (filter_scale s 0 e Hs) as F. rewrite Rmult_0_r in F. now rewrite F.
  - intros [= <-]. change (@n0 R Num_R) with 0. pose proof (filter_scale s 0 e Hs) as F. rewrite Rmult_0_r in F. now rewrite F.
Qed.
Lemma np_sort_scale s (l : list R) : 0 < s -> np_sort (map (Rmult s) l) = map (Rmult s) (np_sort l).
Proof.
  intro Hs. rewrite (map_ext (Rmult s) (fun v => s * v + 0)) by (intro; ring). rewrite np_sort_affine by exact Hs. apply map_ext. intro. ring.
Qed.

(** C140. Covariances in another unit (all series by the factor a, any origins): the eigenvalues are multiplied by a^2, but the
    Marchenko-Pastur end points stored with them, and all that the trimming knows, stay what they were. *)
Theorem C140_covariances : forall (ev : ndarray R -> result (list R)) n t x a b trim zeros ts,
  Homogeneous ev -> (2 <= n)%nat -> (2 <= t)%nat -> 0 < a -> zeros = ZHeuristic \/ zeros = ZNegative ->
  series_object sqrt ev (mkarr [n; t] (table n t x)) true trim zeros 1 = Ok ts ->
  exists ts', series_object sqrt ev (mkarr [n; t] (table n t (fun i k => a * x i k + b i))) true trim zeros 1 = Ok ts' /\
    ts_vals ts' = map (Rmult (a * a)) (ts_vals ts) /\ ts_N ts' = ts_N ts /\ ts_T ts' = ts_T ts /\ ts_mp ts' = ts_mp ts.
Proof.
  intros ev n t x a b trim zeros ts Hh Hn Ht Ha Hz. unfold series_object, from_time_series. cbn [shape data negb Z.eqb Pos.eqb orb].
  set (y := fun i k => a * x i k + b i). rewrite !solved by (try lia; now left). set (m := Nat.min n t).
  assert (table m m (handed true n t (flat t (table n t y))) = map (Rmult (a * a)) (table m m (handed true n t (flat t (table n t x))))) as ->.
  { rewrite table_scale. apply table_ext. intros i j Hi Hj. unfold handed, m in *. destruct (Nat.leb_spec n t) as [Hle|Hgt].
    - rewrite Nat.min_l in Hi, Hj by exact Hle. rewrite (SampleCov_ext (flat t (table n t y)) y), (SampleCov_ext (flat t (table n t x)) x) by (intros; now apply table_flat).
      apply (Cov_aff x (fun _ => a) b). lia.
    - rewrite Nat.min_r in Hi, Hj by lia. unfold Rdiv. rewrite <- Rmult_assoc, <- Sum_scal. f_equal. apply Sum_ext. intros s Hs.
      rewrite (Dev_ext (flat t (table n t y)) y t s i), (Dev_ext (flat t (table n t y)) y t s j), (Dev_ext (flat t (table n t x)) x t s i), (Dev_ext (flat t (table n t x)) x t s j) by (try assumption; intros; now apply table_flat).
      unfold y. rewrite !(Dev_aff x (fun _ => a) b) by lia. ring. }
  assert (0 < a * a) as Haa by nra.
  destruct (ev _) as [e|] eqn:Ee; [|discriminate]. rewrite (Hh _ _ _ _ Haa Ee). cbn [bind].
  destruct (zero_trim trim zeros e) as [k|] eqn:Ek; [|discriminate]. rewrite (zero_trim_scale _ _ _ _ _ Haa Hz Ek). cbn [bind].
  destruct (list_eq_dec Req_EM_T k []) as [->|Hne]; [discriminate|]. destruct (arr_max_exists k Hne) as (mx & Hm & Em). rewrite Em. rewrite (arr_max_R _ _ (Largest_scale _ _ _ Haa Hm)). cbn [bind].
  destruct (Nat.eqb t 0); [discriminate|]. intros [= <-]. eexists. split; [reflexivity|]. cbn [ts_vals ts_N ts_T ts_mp]. split; [now apply np_sort_scale|auto].
Qed.
Print Assumptions C140_covariances.

Lemma ts_facts ev n t x zeros ts : (0 < t)%nat -> zeros = ZHeuristic \/ zeros = ZNegative ->
  series_object sqrt ev (mkarr [n; t] (table n t x)) true true zeros 1 = Ok ts ->
  ts_vals ts <> [] /\ Ascending (ts_vals ts) /\ (forall v, In v (ts_vals ts) -> 0 < v) /\ ts_N ts = n /\ ts_T ts = t.
Proof.
  intros Ht Hz. unfold series_object, from_time_series. cbn [shape data negb Z.eqb Pos.eqb orb].
  destruct (if Nat.leb n t then _ else _) as [e|]; [|discriminate]. cbn [bind].
  destruct (zero_trim true zeros e) as [k|] eqn:Ek; [|discriminate]. cbn [bind].
  destruct (list_eq_dec Req_EM_T k []) as [->|Hne]; [discriminate|]. destruct (arr_max_exists k Hne) as (mx & Hm & Em). rewrite Em. cbn [bind].
  destruct (Nat.eqb_spec t 0) as [|_]; [lia|]. intros [= <-]. cbn [ts_vals ts_N ts_T].
  assert (forall v, In v k -> 0 < v) as Hp.
  { unfold zero_trim in Ek. destruct Hz as [->| ->]; cbn [negb] in Ek.
    - destruct (arr_min e) as [m|] eqn:Er; [|discriminate]. cbn [bind] in Ek. injection Ek as <-. intros v Hv. apply filter_In in Hv. destruct Hv as [_ Hv]. unfold ngt in Hv. apply nlt_R in Hv.
      cbn [nle n0 nmul nofZ Num_R] in Hv. destruct (Rle_dec m 0); lra.
    - injection Ek as <-. intros v Hv. apply filter_In in Hv. destruct Hv as [_ Hv]. unfold ngt in Hv. now apply nlt_R in Hv. }
  assert (forall v, In v (np_sort k) -> 0 < v) by (intros v Hv; apply Hp; eapply Permutation_in; [symmetry; apply np_sort_perm|exact Hv]).
  split; [|split; [apply np_sort_ascending, notnan_R|auto]]. intro E. apply Hne. apply Permutation_nil. symmetry. rewrite <- E. apply np_sort_perm.
Qed.
Lemma filter_none {A} (f : A -> bool) l : (forall x, In x l -> f x = false) -> filter f l = [].
Proof. induction l as [|x l IH]; intro H; [reflexivity|]. cbn. rewrite H by now left. apply IH. intros. apply H. now right. Qed.
Lemma filter_every {A} (f : A -> bool) l : (forall x, In x l -> f x = true) -> filter f l = l.
Proof. induction l as [|x l IH]; intro H; [reflexivity|]. cbn. rewrite H by now left. f_equal. apply IH. intros. apply H. now right. Qed.
Lemma mp_upper_le s n t : s <= 1 -> MPUpper s n t <= MPUpper 1 n t.
Proof. intro H. unfold MPUpper. apply Rmult_le_compat_r; [apply Rle_0_sqr|exact H]. Qed.

(** Hence which eigenvalues count as signal depends on the unit of the data: in a small enough unit (large numbers) all of them do and
    none is noise, in a large enough unit none does, whatever the series and whether or not the end points are shifted. *)
Theorem C140_unit_refuted : forall (ev : ndarray R -> result (list R)) n t x b zeros ts shifted,
  Homogeneous ev -> (2 <= n)%nat -> (2 <= t)%nat -> zeros = ZHeuristic \/ zeros = ZNegative ->
  series_object sqrt ev (mkarr [n; t] (table n t x)) true true zeros 1 = Ok ts ->
  let split_of a largest := let! o := series_object sqrt ev (mkarr [n; t] (table n t (fun i k => a * x i k + b i))) true true zeros 1 in
    let! r := trim_marchenko_pastur sqrt (ts_vals o) (Some (Z.of_nat (ts_N o))) (Some (Z.of_nat (ts_T o))) None None largest shifted in Ok (fst r, ts_vals o) in
  (exists A, 0 < A /\ forall a, A <= a -> exists e, e <> [] /\ split_of a true = Ok (e, e) /\ split_of a false = Ok ([], e)) /\
  (exists A, 0 < A /\ forall a, 0 < a <= A -> exists e, e <> [] /\ split_of a true = Ok ([], e)).
Proof.
  intros ev n t x b zeros ts shifted Hh Hn Ht Hz Hts split_of. destruct (ts_facts ev n t x zeros ts ltac:(lia) Hz Hts) as (Hne & _ & Hpos & _ & _).
  destruct (arr_max_exists _ Hne) as (M & HM & _). destruct (arr_min_exists _ Hne) as (m & Hm & _).
  assert (0 < m) as Hm0 by (apply Hpos, Hm). assert (0 < M) as HM0 by (apply Hpos, HM).
  set (U := MPUpper 1 (Z.of_nat n) (Z.of_nat t)). assert (1 <= U) as HU.
  { unfold U, MPUpper. pose proof (sqrt_pos (IZR (Z.of_nat n) / IZR (Z.of_nat t))). nra. }
  assert (2 <= IZR (Z.of_nat n)) as Hn2 by (apply IZR_le; lia).
  assert (forall a, 0 < a -> exists e, e = map (Rmult (a * a)) (ts_vals ts) /\ e <> [] /\ forall largest, split_of a largest =
    Ok (if largest then filter (fun v => nlt (MPUpper (mp_scale shifted (a * a * M) (Z.of_nat n)) (Z.of_nat n) (Z.of_nat t)) v) e
      else filter (fun v => nlt (MPLower (mp_scale shifted (a * a * M) (Z.of_nat n)) (Z.of_nat n) (Z.of_nat t)) v && nlt v (MPUpper (mp_scale shifted (a * a * M) (Z.of_nat n)) (Z.of_nat n) (Z.of_nat t))) e, e)) as HS.
  { intros a Ha. destruct (C140_covariances ev n t x a b true zeros ts Hh Hn Ht Ha Hz Hts) as (ts' & E & Ev & _ & _ & _).
    destruct (ts_facts ev n t _ zeros ts' ltac:(lia) Hz E) as (Hne' & Hs' & _ & EN & ET).
    exists (ts_vals ts'). split; [exact Ev|]. split; [exact Hne'|]. intro largest. unfold split_of. rewrite E. cbn [bind]. rewrite EN, ET.
    rewrite (mp_value _ (Z.of_nat n) (Z.of_nat t) (a * a * M)); [reflexivity|exact Hs'| |lia|reflexivity|reflexivity]. rewrite Ev. apply Largest_scale; [nra|exact HM]. }
  assert (forall a, mp_scale shifted (a * a * M) (Z.of_nat n) <= 1) as Hsc.
  { intro a. unfold mp_scale. destruct shifted; [|lra]. assert (0 <= a * a * M / IZR (Z.of_nat n)); [|lra]. apply Rmult_le_pos; [|apply Rlt_le, Rinv_0_lt_compat; lra]. apply Rmult_le_pos; [apply Rle_0_sqr|lra]. }
  split.
  - exists (U / m + 1). assert (0 < U / m) as Hd by (apply Rdiv_lt_0_compat; lra). split; [lra|]. intros a Ha. destruct (HS a ltac:(lra)) as (e & Ee & He & Hsp).
    assert (forall v, In v e -> MPUpper (mp_scale shifted (a * a * M) (Z.of_nat n)) (Z.of_nat n) (Z.of_nat t) < v) as Hv.
    { intros v Hv. rewrite Ee in Hv. apply in_map_iff in Hv. destruct Hv as (w & <- & Hw). pose proof (proj2 Hm w Hw) as Hmw. eapply Rle_lt_trans; [apply mp_upper_le, Hsc|]. fold U.
      assert (U = U / m * m) as EU by (field; lra). assert (U / m < a * a) by nra. assert (U < a * a * m) by (rewrite EU; nra). nra. }
    exists e. split; [exact He|]. rewrite !Hsp. split.
    + rewrite filter_every; [reflexivity|]. intros v Hi. apply nlt_R, Hv, Hi.
    + rewrite filter_none; [reflexivity|]. intros v Hi. apply andb_false_iff. right. apply nlt_R_false. specialize (Hv v Hi). lra.
  - exists (Rmin 1 (/ (2 * M))). assert (0 < / (2 * M)) as Hi2 by (apply Rinv_0_lt_compat; lra). split; [apply Rmin_glb_lt; lra|]. intros a [Ha Ha'].
    destruct (HS a Ha) as (e & Ee & He & Hsp). exists e. split; [exact He|]. rewrite Hsp, filter_none; [reflexivity|]. intros v Hv. apply nlt_R_false.
    rewrite Ee in Hv. apply in_map_iff in Hv. destruct Hv as (w & <- & Hw). pose proof (proj2 HM w Hw) as HMw.
    pose proof (Rmin_l 1 (/ (2 * M))). pose proof (Rmin_r 1 (/ (2 * M))). assert (a * a <= / (2 * M)) as Ha2 by nra.
    assert (/ (2 * M) * M = / 2) as Hq by (field; lra). assert (a * a * M <= / 2) as H1 by (rewrite <- Hq; apply Rmult_le_compat_r; lra).
    assert (a * a * w <= a * a * M) as H2 by (apply Rmult_le_compat_l; [apply Rle_0_sqr|exact HMw]).
    assert (/ 2 <= mp_scale shifted (a * a * M) (Z.of_nat n)) as H3.
    { unfold mp_scale. destruct shifted; [|lra]. assert (a * a * M / IZR (Z.of_nat n) <= / 2); [|lra]. apply (Rmult_le_reg_r (IZR (Z.of_nat n))); [lra|]. unfold Rdiv. rewrite Rmult_assoc, Rinv_l by lra. lra. }
    assert (MPUpper (mp_scale shifted (a * a * M) (Z.of_nat n)) (Z.of_nat n) (Z.of_nat t) = mp_scale shifted (a * a * M) (Z.of_nat n) * U) as -> by (unfold U, MPUpper; ring).
    assert (/ 2 * 1 <= mp_scale shifted (a * a * M) (Z.of_nat n) * U) by (apply Rmult_le_compat; lra). lra.
Qed.
Print Assumptions C140_unit_refuted.

(** A solver for order two; two series of two points: 0, 1 and 0, 2.  Their covariances have the eigenvalues 0 and 5/2; the second is
    noise in this unit (the end points are 0 and 4) and signal when the numbers are doubled. *)
Definition ex_solver (m : ndarray R) : result (list R) :=
  match data m with
  | [p; q; _; s] => let r := sqrt ((p - s) * (p - s) + 4 * (q * q)) in Ok [(p + s - r) / 2; (p + s + r) / 2]
  | _ => Raise LinAlgError
  end.
Lemma ex_homogeneous : Homogeneous ex_solver.
Proof.
  intros c sh l e Hc. unfold ex_solver. cbn [data]. destruct l as [|p [|q [|q' [|s [|]]]]]; try discriminate. cbn [map]. intros [= <-].
  replace ((c * p - c * s) * (c * p - c * s) + 4 * (c * q * (c * q))) with (c * c * ((p - s) * (p - s) + 4 * (q * q))) by ring.
  pose proof (Rle_0_sqr (p - s)). pose proof (Rle_0_sqr q). unfold Rsqr in *.
  rewrite sqrt_mult, sqrt_square by nra. cbn [map]. do 2 f_equal; [|f_equal]; field.
Qed.
Definition ex_x (i k : nat) : R := match k with O => 0 | _ => match i with O => 1 | _ => 2 end end.
Example C140_ex : exists ts ts',
  series_object sqrt ex_solver (mkarr [2%nat; 2%nat] (table 2 2 ex_x)) true true ZNegative 1 = Ok ts /\ ts_vals ts = [5 / 2] /\ ts_mp ts = (0, 4) /\
  series_object sqrt ex_solver (mkarr [2%nat; 2%nat] (table 2 2 (fun i k => 2 * ex_x i k + 0))) true true ZNegative 1 = Ok ts' /\ ts_vals ts' = [10] /\ ts_mp ts' = (0, 4) /\
  Varies ex_x 2 0 /\ Varies ex_x 2 1.
Proof.
  assert (exists ts, series_object sqrt ex_solver (mkarr [2%nat; 2%nat] (table 2 2 ex_x)) true true ZNegative 1 = Ok ts /\ ts_vals ts = [5 / 2] /\ ts_mp ts = (0, 4)) as (ts & E & Ev & Em).
  { unfold series_object, from_time_series. cbn [shape data negb Z.eqb Pos.eqb orb]. rewrite solved by (try lia; now left).
    assert (ex_solver (mkarr [Nat.min 2 2; Nat.min 2 2] (table (Nat.min 2 2) (Nat.min 2 2) (handed true 2 2 (flat 2 (table 2 2 ex_x))))) = Ok [0; 5 / 2]) as ->.
    { assert (table (Nat.min 2 2) (Nat.min 2 2) (handed true 2 2 (flat 2 (table 2 2 ex_x))) = [/ 2; 1; 1; 2]) as ->.
      { unfold table, handed, SampleCov, Dev, Mean, flat. cbn. repeat (apply f_equal2; [field|]). reflexivity. }
      unfold ex_solver. cbn [data]. replace ((/ 2 - 2) * (/ 2 - 2) + 4 * (1 * 1)) with (5 / 2 * (5 / 2)) by field. rewrite sqrt_square by lra. do 2 f_equal; [|f_equal]; field. }
    cbn [bind zero_trim negb filter]. unfold ngt. change (@n0 R Num_R) with 0.
    assert (nlt 0 (0 : R) = false) as -> by (apply nlt_R_false; lra). assert (nlt 0 (5 / 2) = true) as -> by (apply nlt_R; lra). cbn [bind arr_max Nat.eqb].
    eexists. split; [reflexivity|]. cbn [ts_vals ts_mp np_sort insert_by]. split; [reflexivity|]. cbn. replace (2 / 2) with 1 by field. rewrite sqrt_1. apply f_equal2; unfold nsq; cbn; ring. }
  destruct (C140_covariances ex_solver 2 2 ex_x 2 (fun _ => 0) true ZNegative ts ex_homogeneous) as (ts' & E' & Ev' & _ & _ & Em'); try lia; try lra; [now right|exact E|].
  exists ts, ts'. split; [exact E|]. split; [exact Ev|]. split; [exact Em|]. split; [exact E'|]. rewrite Ev', Ev, Em', Em. cbn [map]. split; [f_equal; field|]. split; [reflexivity|].
  split; exists 0%nat, 1%nat; cbn; repeat split; try lia; lra.
Qed.
