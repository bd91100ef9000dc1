(** Counts of values whose moments converge, and the distribution function of the Marchenko-Pastur law. *)
From Coq Require Import List ZArith Bool Arith Lia Reals Lra.
From Coquelicot Require Import Coquelicot.
From Verif Require Import Base S_Generate S_Normal S_Rotate S_CCharPoly S_Moments S_Law S_MP P_Generate P_Surmise P_Rotate P_Moments P_Wishart P_Semi P_Approx P_Law P_LawUnfold P_MPLoop P_MP.
Import ListNotations.
Local Open Scope R_scope.
Local Notation length := List.length.
Local Ltac rq := match goal with |- ?a = ?b => change (@eq R a b) end.

(** ** From moments to counts *)
Section Counts.
Variables (K N : nat -> nat) (lam : nat -> list R -> list R) (v : list nat -> nat -> R) (m : nat -> R).
Hypothesis N_pos : forall j, 0 < INR (N j).
Hypothesis averages : forall ks j, NormalAverage (K j) (fun l => power_sums ks (lam j l)) (v ks j).
Hypothesis limits : forall ks, is_lim_seq (fun j => v ks j / INR (N j) ^ length ks) (fold_right Rmult 1 (map m ks)).
Definition lmean (cs : list R) : R := SumTo (length cs) (fun k => nth k cs 0 * m k).
Definition part (cs : list R) (j : nat) (l : list R) : R := total (map (peval cs) (lam j l)) / INR (N j).
Lemma part_sum cs j l : part cs j l = SumTo (length cs) (fun k => nth k cs 0 / INR (N j) * power_sum k (lam j l)).
Proof.
  pose proof (N_pos j) as Hp. unfold part, power_sum. induction (lam j l) as [|x t IH].
  - cbn. rewrite (SumTo_ext _ _ (fun _ => 0)) by (intros; ring). rewrite SumTo_const. unfold Rdiv. ring.
  - unfold total in *. cbn [map fold_right]. rewrite Rdiv_plus_distr, IH. unfold Rdiv at 1. rewrite peval_sum, (Rmult_comm (SumTo _ _)), <- SumTo_scale, <- SumTo_add. apply SumTo_ext. intros k _. field. lra.
Qed.
Lemma part_average cs : exists a : nat -> R, (forall j, NormalAverage (K j) (part cs j) (a j)) /\ is_lim_seq a (lmean cs).
Proof.
  exists (fun j => SumTo (length cs) (fun k => nth k cs 0 / INR (N j) * v [k] j)). split.
  - intro j. apply (navg_ext _ (fun l => SumTo (length cs) (fun k => nth k cs 0 / INR (N j) * power_sum k (lam j l)))); [intros; now rewrite part_sum|].
    apply (navg_SumTo (K j) (length cs) (fun k l => nth k cs 0 / INR (N j) * power_sum k (lam j l))). intros k _. apply navg_scale. refine (navg_ext _ _ _ _ _ (averages [k] j)). intros l _. unfold power_sums. cbn. ring.
  - unfold lmean. apply (lim_SumTo (length cs) (fun k j => nth k cs 0 / INR (N j) * v [k] j)). intros k _. pose proof (limits [k]) as L. cbn [fold_right map length] in L. rewrite Rmult_1_r in L.
    refine (is_lim_seq_ext _ _ _ _ (is_lim_seq_scal_l _ (nth k cs 0) _ L)). intro j. cbn [pow]. rewrite Rmult_1_r. unfold Rdiv. ring.
Qed.
Lemma part_square cs : exists a : nat -> R, (forall j, NormalAverage (K j) (fun l => part cs j l * part cs j l) (a j)) /\ is_lim_seq a (lmean cs * lmean cs).
Proof.
  exists (fun n => SumTo (length cs) (fun j => SumTo (length cs) (fun k => nth j cs 0 * nth k cs 0 / (INR (N n) * INR (N n)) * v [j; k] n))). split.
  - intro n. apply (navg_ext _ (fun l => SumTo (length cs) (fun j => SumTo (length cs) (fun k => nth j cs 0 * nth k cs 0 / (INR (N n) * INR (N n)) * power_sums [j; k] (lam n l))))).
    { intros l _. rewrite part_sum. rewrite SumTo_product. apply SumTo_ext. intros j _. apply SumTo_ext. intros k _. unfold power_sums. cbn [map fold_right]. rewrite Rmult_1_r. pose proof (N_pos n). field. lra. }
    apply (navg_SumTo (K n) (length cs) (fun j l => SumTo (length cs) (fun k => nth j cs 0 * nth k cs 0 / (INR (N n) * INR (N n)) * power_sums [j; k] (lam n l)))). intros j _.
    apply (navg_SumTo (K n) (length cs) (fun k l => nth j cs 0 * nth k cs 0 / (INR (N n) * INR (N n)) * power_sums [j; k] (lam n l))). intros k _. apply navg_scale, averages.
  - unfold lmean. rewrite SumTo_product. apply (lim_SumTo (length cs) (fun j n => SumTo (length cs) (fun k => nth j cs 0 * nth k cs 0 / (INR (N n) * INR (N n)) * v [j; k] n))). intros j _.
    apply (lim_SumTo (length cs) (fun k n => nth j cs 0 * nth k cs 0 / (INR (N n) * INR (N n)) * v [j; k] n)). intros k _. pose proof (limits [j; k]) as L. cbn [fold_right map length] in L. rewrite Rmult_1_r in L.
    replace (nth j cs 0 * m j * (nth k cs 0 * m k)) with (nth j cs 0 * nth k cs 0 * (m j * m k)) by ring.
    refine (is_lim_seq_ext _ _ _ _ (is_lim_seq_scal_l _ (nth j cs 0 * nth k cs 0) _ L)). intro n. cbn [pow]. rewrite Rmult_1_r. unfold Rdiv. ring.
Qed.
Variable dom : R -> Prop.
Hypothesis inside : forall j l y, length l = K j -> In y (lam j l) -> dom y.
Variables x F : R.
Hypothesis sides : forall e, 0 < e -> exists ps qs, (forall y, dom y -> peval ps y <= if Rlt_dec y x then 1 else 0) /\ (forall y, dom y -> (if Rle_dec y x then 1 else 0) <= peval qs y) /\ Rabs (lmean ps - F) <= e /\ Rabs (lmean qs - F) <= e.
Variable c : nat -> list R -> R.
Hypothesis between : forall j l, length l = K j -> count_lt x (lam j l) <= c j l <= count_le x (lam j l).
Lemma total_le_in {A} (f g : A -> R) l : (forall a, In a l -> f a <= g a) -> total (map f l) <= total (map g l).
Proof. intro H. unfold total. induction l as [|a l IH]; cbn [map fold_right]; [lra|]. specialize (IH (fun b Hb => H b (or_intror Hb))). specialize (H a (or_introl eq_refl)). lra. Qed.
Lemma part_sides ps qs j l : (forall y, dom y -> peval ps y <= if Rlt_dec y x then 1 else 0) -> (forall y, dom y -> (if Rle_dec y x then 1 else 0) <= peval qs y) -> length l = K j -> part ps j l <= c j l / INR (N j) <= part qs j l.
Proof.
  intros Hp Hq Hl. destruct (between j l Hl) as [B1 B2]. pose proof (Rinv_0_lt_compat _ (N_pos j)) as Hv. unfold part, Rdiv. split; apply Rmult_le_compat_r; try lra.
  - refine (Rle_trans _ _ _ _ B1). apply total_le_in. intros y Hy. apply Hp, (inside j l y Hl Hy).
  - apply (Rle_trans _ _ _ B2). apply total_le_in. intros y Hy. apply Hq, (inside j l y Hl Hy).
Qed.
Lemma part_mean_on e : 0 < e -> exists J, forall j, (J <= j)%nat -> AverageWithin (K j) (fun l => c j l / INR (N j)) (F - e) (F + e).
Proof.
  intro He. destruct (sides (e / 2) ltac:(lra)) as (ps & qs & Hp & Hq & Mp & Mq). destruct (part_average ps) as (a & A1 & A2). destruct (part_average qs) as (b & B1 & B2).
  apply is_lim_seq_spec in A2. apply is_lim_seq_spec in B2. destruct (A2 (mkposreal (e / 2) ltac:(lra))) as (N1 & H1). destruct (B2 (mkposreal (e / 2) ltac:(lra))) as (N2 & H2). cbn in H1, H2.
  exists (N1 + N2)%nat. intros n Hn. exists (part ps n), (part qs n), (a n), (b n). specialize (H1 n ltac:(lia)). specialize (H2 n ltac:(lia)). apply Rabs_def2 in H1. apply Rabs_def2 in H2. apply Rabs_le_between in Mp. apply Rabs_le_between in Mq.
  split; [intros l Hl; now apply part_sides|]. split; [apply A1|]. split; [apply B1|]. lra.
Qed.
Lemma part_spread_on e : 0 < e -> exists J, forall j, (J <= j)%nat -> exists h w, (forall l, length l = K j -> (c j l / INR (N j) - F) ^ 2 <= h l) /\ NormalAverage (K j) h w /\ w <= e.
Proof.
  intro He. set (d := Rmin 1 (e / 4)). assert (0 < d) as Hd by (unfold d; apply Rmin_case; lra). assert (d <= 1 /\ d <= e / 4) as [D1 D2] by (unfold d; split; [apply Rmin_l|apply Rmin_r]).
  destruct (sides d Hd) as (ps & qs & Hp & Hq & Mp & Mq).
  assert (forall cs, Rabs (lmean cs - F) <= d -> exists y : nat -> R, (forall n, NormalAverage (K n) (fun l => (part cs n l - F) ^ 2) (y n)) /\ exists J, forall n, (J <= n)%nat -> y n <= e / 2) as Q.
  { intros cs Mc. destruct (part_average cs) as (a & A1 & A2). destruct (part_square cs) as (b & B1 & B2). exists (fun n => 1 * (1 * b n + (- 2 * F) * a n) + F ^ 2 * 1). split.
    - intro n. pose proof (navg_lin (K n) _ _ _ _ 1 (- 2 * F) (B1 n) (A1 n)) as L. pose proof (navg_lin (K n) _ _ _ _ 1 (F ^ 2) L (navg_const (K n) 1)) as L2. refine (navg_ext _ _ _ _ _ L2). intros l _. ring.
    - assert (is_lim_seq (fun n => 1 * (1 * b n + (- 2 * F) * a n) + F ^ 2 * 1) ((lmean cs - F) ^ 2)) as L.
      { replace ((lmean cs - F) ^ 2) with (1 * (1 * (lmean cs * lmean cs) + (- 2 * F) * lmean cs) + F ^ 2 * 1) by ring.
        apply is_lim_seq_plus'; [|apply is_lim_seq_const]. apply (is_lim_seq_scal_l _ 1 (1 * (lmean cs * lmean cs) + (- 2 * F) * lmean cs)). apply is_lim_seq_plus'; [apply (is_lim_seq_scal_l _ 1 (lmean cs * lmean cs)); exact B2|apply (is_lim_seq_scal_l _ (- 2 * F) (lmean cs)); exact A2]. }
      apply is_lim_seq_spec in L. destruct (L (mkposreal (e / 4) ltac:(lra))) as (J & HJ). cbn [pos] in HJ. exists J. intros n Hn. specialize (HJ n Hn). apply Rabs_def2 in HJ. apply Rabs_le_between in Mc.
      assert ((lmean cs - F) ^ 2 <= e / 4) by (apply (sq_small _ d); [exact Mc|exact D1|exact D2]). lra. }
  destruct (Q ps Mp) as (y & X1 & N1 & X2). destruct (Q qs Mq) as (z & Y1 & N2 & Y2). exists (N1 + N2)%nat. intros n Hn. exists (fun l => 1 * (part ps n l - F) ^ 2 + 1 * (part qs n l - F) ^ 2), (1 * y n + 1 * z n).
  split; [|split; [apply navg_lin; [apply X1|apply Y1]|specialize (X2 n ltac:(lia)); specialize (Y2 n ltac:(lia)); lra]].
  intros l Hl. destruct (part_sides ps qs n l Hp Hq Hl) as [S1 S2]. now apply sq_between.
Qed.
End Counts.
Section Everywhere.
Variables (K N : nat -> nat) (lam : nat -> list R -> list R) (v : list nat -> nat -> R) (m : nat -> R).
Hypothesis N_pos : forall j, 0 < INR (N j).
Hypothesis averages : forall ks j, NormalAverage (K j) (fun l => power_sums ks (lam j l)) (v ks j).
Hypothesis limits : forall ks, is_lim_seq (fun j => v ks j / INR (N j) ^ length ks) (fold_right Rmult 1 (map m ks)).
Variables x F : R.
Hypothesis sides : forall e, 0 < e -> exists ps qs, (forall y, peval ps y <= if Rlt_dec y x then 1 else 0) /\ (forall y, (if Rle_dec y x then 1 else 0) <= peval qs y) /\ Rabs (lmean m ps - F) <= e /\ Rabs (lmean m qs - F) <= e.
Variable c : nat -> list R -> R.
Hypothesis between : forall j l, length l = K j -> count_lt x (lam j l) <= c j l <= count_le x (lam j l).
Lemma sides_on e : 0 < e -> exists ps qs, (forall y, True -> peval ps y <= if Rlt_dec y x then 1 else 0) /\ (forall y, True -> (if Rle_dec y x then 1 else 0) <= peval qs y) /\ Rabs (lmean m ps - F) <= e /\ Rabs (lmean m qs - F) <= e.
Proof. intro He. destruct (sides e He) as (ps & qs & H1 & H2 & H3). exists ps, qs. auto. Qed.
Lemma part_mean e : 0 < e -> exists J, forall j, (J <= j)%nat -> AverageWithin (K j) (fun l => c j l / INR (N j)) (F - e) (F + e).
Proof. exact (part_mean_on K N lam v m N_pos averages limits (fun _ => True) (fun _ _ _ _ _ => I) x F sides_on c between e). Qed.
Lemma part_spread e : 0 < e -> exists J, forall j, (J <= j)%nat -> exists h w, (forall l, length l = K j -> (c j l / INR (N j) - F) ^ 2 <= h l) /\ NormalAverage (K j) h w /\ w <= e.
Proof. exact (part_spread_on K N lam v m N_pos averages limits (fun _ => True) (fun _ _ _ _ _ => I) x F sides_on c between e). Qed.
End Everywhere.

(** ** The distribution function *)
Section Area.
Variable c : R.
Hypothesis c_range : 0 < c < 1.
Local Notation q := (sqrt c).
Local Notation a := (1 + c).
Local Notation gap := ((1 - sqrt c) * (1 - sqrt c)).
Local Notation dens := (dens c).
Definition area (t : R) : R := RInt dens (-2) t.
Lemma dens_continuous s : -2 <= s <= 2 -> continuous dens s.
Proof.
  intro Hs. apply (continuous_mult (K := R_AbsRing) semicircle (fun s => / (a + q * s))); [apply semicircle_continuous|].
  apply (ex_derive_continuous (V := R_NormedModule)). pose proof (below c c_range s Hs). pose proof (gap_pos c c_range). auto_derive. lra.
Qed.
Lemma dens_range s : -2 <= s <= 2 -> 0 <= dens s <= semicircle s / gap.
Proof.
  intro Hs. pose proof (below c c_range s Hs) as B. pose proof (gap_pos c c_range) as G. pose proof (semicircle_nonneg s) as S. unfold P_MP.dens, Rdiv. split.
  - apply Rmult_le_pos; [exact S|]. apply Rlt_le, Rinv_0_lt_compat. lra.
  - apply Rmult_le_compat_l; [exact S|]. apply Rinv_le_contravar; lra.
Qed.
Lemma mp_int k : is_RInt (fun s => (a + q * s) ^ k * dens s) (-2) 2 (mp_moment c k).
Proof.
  destruct k as [|k].
  - refine (is_RInt_ext _ _ _ _ _ _ (dens_total c c_range)). intros s _. rq. cbn [pow]. ring.
  - refine (is_RInt_ext _ _ _ _ _ _ (ymom_int a q k)). intros s Hs. rewrite Rmin_left, Rmax_right in Hs by lra. pose proof (below c c_range s ltac:(lra)). pose proof (gap_pos c c_range). rq. unfold P_MP.dens. cbn [pow]. field. lra.
Qed.
Lemma lmean_int cs : is_RInt (fun s => peval cs (a + q * s) * dens s) (-2) 2 (lmean (mp_moment c) cs).
Proof.
  apply (is_RInt_ext (fun s => SumTo (length cs) (fun k => nth k cs 0 * ((a + q * s) ^ k * dens s)))).
  - intros s _. rewrite peval_sum. rewrite (Rmult_comm (SumTo _ _)), <- SumTo_scale. apply SumTo_ext. intros; ring.
  - unfold lmean. apply (is_RInt_SumTo (length cs) (fun k s => nth k cs 0 * ((a + q * s) ^ k * dens s))). intros k _. exact (is_RInt_scal (V := R_NormedModule) _ _ _ (nth k cs 0) _ (mp_int k)).
Qed.
Lemma on_ex (f w : R -> R) u t : (forall s, continuous f s) -> (forall s, -2 <= s <= 2 -> continuous w s) -> -2 <= u <= t -> t <= 2 -> ex_RInt (fun s => f s * w s) u t.
Proof.
  intros Hf Hw Hu Ht. apply (ex_RInt_continuous (V := R_CompleteNormedModule)). intros s Hs. rewrite Rmin_left, Rmax_right in Hs by lra. apply (continuous_mult (K := R_AbsRing) f w); [apply Hf|apply Hw; lra].
Qed.
(** A function above the step: the excess. *)
Lemma excess (f w : R -> R) t : (forall s, continuous f s) -> (forall s, -2 <= s <= 2 -> continuous w s) -> -2 <= t <= 2 ->
  RInt (fun s => f s * w s) (-2) 2 - RInt w (-2) t = RInt (fun s => (f s - 1) * w s) (-2) t + RInt (fun s => f s * w s) t 2.
Proof.
  intros Hf Hw Ht. assert (forall s, continuous (fun _ : R => 1) s) as H1 by (intro; apply continuous_const).
  pose proof (RInt_Chasles (V := R_CompleteNormedModule) (fun s => f s * w s) (-2) t 2 (on_ex f w (-2) t Hf Hw ltac:(lra) ltac:(lra)) (on_ex f w t 2 Hf Hw ltac:(lra) ltac:(lra))) as C. change (RInt (fun s => f s * w s) (-2) t + RInt (fun s => f s * w s) t 2 = RInt (fun s => f s * w s) (-2) 2) in C.
  assert (RInt (fun s => (f s - 1) * w s) (-2) t = RInt (fun s => f s * w s) (-2) t - RInt w (-2) t) as M.
  { apply (is_RInt_unique (V := R_CompleteNormedModule)). pose proof (RInt_correct (V := R_CompleteNormedModule) _ _ _ (on_ex f w (-2) t Hf Hw ltac:(lra) ltac:(lra))) as A1.
    assert (ex_RInt w (-2) t) as E2 by (apply (ex_RInt_ext (fun s => 1 * w s)); [intros s _; rq; ring|exact (on_ex (fun _ => 1) w (-2) t H1 Hw ltac:(lra) ltac:(lra))]).
    pose proof (RInt_correct (V := R_CompleteNormedModule) _ _ _ E2) as A2. pose proof (is_RInt_minus (V := R_NormedModule) _ _ _ _ _ _ A1 A2) as D. refine (is_RInt_ext _ _ _ _ _ _ D). intros s _. rq. unfold minus, plus, opp. cbn. ring. }
  rewrite M, <- C. ring.
Qed.
Lemma weigh (sg : R) (h : R -> R) u t : (forall s, continuous h s) -> -2 <= u <= t -> t <= 2 -> (forall s, u < s < t -> 0 <= sg * h s) ->
  0 <= sg * RInt (fun s => h s * dens s) u t <= sg * RInt (fun s => h s * semicircle s) u t / gap.
Proof.
  intros Hh Hu Ht Hs. pose proof (gap_pos c c_range) as G.
  pose proof (RInt_correct (V := R_CompleteNormedModule) _ _ _ (on_ex h dens u t Hh dens_continuous Hu Ht)) as A1. pose proof (RInt_correct (V := R_CompleteNormedModule) _ _ _ (on_ex h semicircle u t Hh (fun s _ => semicircle_continuous s) Hu Ht)) as A2.
  apply (is_RInt_scal (V := R_NormedModule) _ _ _ sg) in A1. apply (is_RInt_scal (V := R_NormedModule) _ _ _ (sg / gap)) in A2. change (is_RInt (fun s => sg * (h s * dens s)) u t (sg * RInt (fun s => h s * dens s) u t)) in A1. change (is_RInt (fun s => sg / gap * (h s * semicircle s)) u t (sg / gap * RInt (fun s => h s * semicircle s) u t)) in A2.
  pose proof (is_RInt_const (V := R_NormedModule) u t 0) as Z. unfold scal in Z. cbn in Z. unfold mult in Z. cbn in Z. rewrite Rmult_0_r in Z. split.
  - refine (is_RInt_le _ _ u t _ _ ltac:(lra) Z A1 _). intros s H. specialize (Hs s H). pose proof (dens_range s ltac:(lra)). cbn. rewrite <- Rmult_assoc. apply Rmult_le_pos; lra.
  - replace (sg * RInt (fun s => h s * semicircle s) u t / gap) with (sg / gap * RInt (fun s => h s * semicircle s) u t) by (unfold Rdiv; ring).
    refine (is_RInt_le _ _ u t _ _ ltac:(lra) A1 A2 _). intros s H. specialize (Hs s H). pose proof (dens_range s ltac:(lra)) as [_ D]. cbn. unfold Rdiv in *. replace (sg * / gap * (h s * semicircle s)) with ((sg * h s) * (semicircle s * / gap)) by ring. rewrite <- Rmult_assoc. now apply Rmult_le_compat_l.
Qed.
Lemma peval_continuous cs s : continuous (peval cs) s.
Proof.
  apply (continuous_ext (fun x => SumTo (length cs) (fun k => nth k cs 0 * x ^ k))); [intro; symmetry; apply peval_sum|]. induction (length cs) as [|n IH]; cbn [SumTo]; [apply continuous_const|].
  apply (continuous_plus (V := R_NormedModule) (fun x => SumTo n (fun k => nth k cs 0 * x ^ k))); [exact IH|]. apply (ex_derive_continuous (V := R_NormedModule)). auto_derive. exact I.
Qed.
Lemma sides_mp t e : -2 <= t <= 2 -> 0 < e -> exists ps qs, (forall y, peval ps y <= if Rlt_dec y (a + q * t) then 1 else 0) /\ (forall y, (if Rle_dec y (a + q * t) then 1 else 0) <= peval qs y) /\
  Rabs (lmean (mp_moment c) ps - area t) <= e /\ Rabs (lmean (mp_moment c) qs - area t) <= e.
Proof.
  intros Ht He. pose proof (gap_pos c c_range) as G. destruct (q_range c c_range) as [Hq Eq].
  destruct (step_sides t (e * gap) ltac:(now apply Rmult_lt_0_compat)) as (ps & qs & Hp & Hq' & Mp & Mq).
  assert (IsPoly (fun y => (y - a) / q)) as PL by (apply (ispoly_ext (fun y => / q * (y + - a))); [intro; field; lra|]; apply ispoly_scale, ispoly_add; [apply ispoly_id|apply ispoly_const]).
  destruct (ispoly_comp (peval ps) _ (ex_intro _ ps (fun _ => eq_refl)) PL) as (ps1 & E1). destruct (ispoly_comp (peval qs) _ (ex_intro _ qs (fun _ => eq_refl)) PL) as (qs1 & E2).
  assert (forall y, y < a + q * t <-> (y - a) / q < t) as LT.
  { intro y. split; intro H; [apply (Rmult_lt_reg_l q); [lra|]; replace (q * ((y - a) / q)) with (y - a) by (field; lra); lra|]. apply (Rmult_lt_compat_l q) in H; [|lra]. replace (q * ((y - a) / q)) with (y - a) in H by (field; lra). lra. }
  assert (forall y, y <= a + q * t <-> (y - a) / q <= t) as LE.
  { intro y. split; intro H; [apply (Rmult_le_reg_l q); [lra|]; replace (q * ((y - a) / q)) with (y - a) by (field; lra); lra|]. apply (Rmult_le_compat_l q) in H; [|lra]. replace (q * ((y - a) / q)) with (y - a) in H by (field; lra). lra. }
  assert (forall cs cs1, (forall y, peval cs ((y - a) / q) = peval cs1 y) -> lmean (mp_moment c) cs1 - area t = RInt (fun s => (peval cs s - 1) * dens s) (-2) t + RInt (fun s => peval cs s * dens s) t 2 /\
    pmean cs - mass t = RInt (fun s => (peval cs s - 1) * semicircle s) (-2) t + RInt (fun s => peval cs s * semicircle s) t 2) as EX.
  { intros cs cs1 E. split.
    - rewrite <- (excess (peval cs) dens t (peval_continuous cs) dens_continuous Ht). unfold area. f_equal. symmetry. apply (is_RInt_unique (V := R_CompleteNormedModule)).
      refine (is_RInt_ext _ _ _ _ _ _ (lmean_int cs1)). intros s _. rq. rewrite <- E. do 2 f_equal. field. lra.
    - rewrite <- (excess (peval cs) semicircle t (peval_continuous cs) (fun s _ => semicircle_continuous s) Ht). unfold mass. f_equal. symmetry. apply (is_RInt_unique (V := R_CompleteNormedModule)), pmean_int. }
  assert (forall cs s, continuous (fun s => peval cs s - 1) s) as CM by (intros cs s; apply (continuous_minus (V := R_NormedModule) (peval cs)); [apply peval_continuous|apply continuous_const]).
  assert (forall sg cs cs1, (sg = 1 \/ sg = -1) -> (forall y, peval cs ((y - a) / q) = peval cs1 y) -> (forall s, -2 < s < t -> 0 <= sg * (peval cs s - 1)) -> (forall s, t < s < 2 -> 0 <= sg * peval cs s) ->
    Rabs (pmean cs - mass t) <= e * gap -> Rabs (lmean (mp_moment c) cs1 - area t) <= e) as FIN.
  { intros sg cs cs1 Hsg E H1 H2 B. destruct (EX cs cs1 E) as [X1 X2]. rewrite X1. rewrite X2 in B.
    pose proof (weigh sg (fun s => peval cs s - 1) (-2) t (CM cs) ltac:(lra) ltac:(lra) H1) as [W1 W2]. pose proof (weigh sg (peval cs) t 2 (peval_continuous cs) ltac:(lra) ltac:(lra) H2) as [W3 W4].
    set (i1 := RInt (fun s => (peval cs s - 1) * dens s) (-2) t) in *. set (i2 := RInt (fun s => peval cs s * dens s) t 2) in *. set (k1 := RInt (fun s => (peval cs s - 1) * semicircle s) (-2) t) in *. set (k2 := RInt (fun s => peval cs s * semicircle s) t 2) in *.
    assert (sg * (i1 + i2) <= e) as U.
    { apply (Rle_trans _ (sg * (k1 + k2) / gap)); [unfold Rdiv in *; rewrite !Rmult_plus_distr_l, Rmult_plus_distr_r; lra|]. apply (Rmult_le_reg_r gap); [exact G|]. unfold Rdiv. rewrite Rmult_assoc, Rinv_l, Rmult_1_r by lra. apply Rabs_le_between in B. destruct Hsg as [-> | ->]; lra. }
    apply Rabs_le. destruct Hsg as [-> | ->]; lra. }
  exists ps1, qs1. split; [|split; [|split]].
  - intro y. rewrite <- E1. apply (Rle_trans _ _ _ (Hp ((y - a) / q))). destruct (Rlt_dec ((y - a) / q) t) as [L|L]; destruct (Rlt_dec y (a + q * t)) as [M|M]; try lra. exfalso. apply M, LT, L.
  - intro y. rewrite <- E2. refine (Rle_trans _ _ _ _ (Hq' ((y - a) / q))). destruct (Rle_dec ((y - a) / q) t) as [L|L]; destruct (Rle_dec y (a + q * t)) as [M|M]; try lra. exfalso. apply L, LE, M.
  - apply (FIN (-1) ps ps1); [now right|exact E1| | |exact Mp].
    + intros s Hs. specialize (Hp s). destruct (Rlt_dec s t); lra.
    + intros s Hs. specialize (Hp s). destruct (Rlt_dec s t); lra.
  - apply (FIN 1 qs qs1); [now left|exact E2| | |exact Mq].
    + intros s Hs. specialize (Hq' s). destruct (Rle_dec s t); lra.
    + intros s Hs. specialize (Hq' s). destruct (Rle_dec s t); lra.
Qed.
Lemma area_ends : area (-2) = 0 /\ area 2 = 1.
Proof. split; [apply (RInt_point (V := R_CompleteNormedModule))|]. apply (is_RInt_unique (V := R_CompleteNormedModule)), dens_total, c_range. Qed.
Lemma area_step u t : -2 <= u <= t -> t <= 2 -> 0 <= area t - area u <= (t - u) / gap.
Proof.
  intros Hu Ht. pose proof (gap_pos c c_range) as G. assert (forall x y, -2 <= x <= y -> y <= 2 -> ex_RInt dens x y) as EX.
  { intros x y Hx Hy. apply (ex_RInt_continuous (V := R_CompleteNormedModule)). intros s Hs. rewrite Rmin_left, Rmax_right in Hs by lra. apply dens_continuous. lra. }
  pose proof (RInt_Chasles (V := R_CompleteNormedModule) dens (-2) u t (EX (-2) u ltac:(lra) ltac:(lra)) (EX u t ltac:(lra) ltac:(lra))) as C. change (area u + RInt dens u t = area t) in C.
  assert (area t - area u = RInt dens u t) as -> by lra. split.
  - apply RInt_ge_0; [lra|apply EX; lra|]. intros s Hs. apply (dens_range s). lra.
  - pose proof (is_RInt_const (V := R_NormedModule) u t (/ gap)) as Z. unfold scal in Z. cbn in Z. unfold mult in Z. cbn in Z. refine (is_RInt_le _ _ u t _ _ ltac:(lra) (RInt_correct (V := R_CompleteNormedModule) _ _ _ (EX u t ltac:(lra) ltac:(lra))) Z _).
    intros s Hs. pose proof (dens_range s ltac:(lra)) as [_ D]. apply (Rle_trans _ _ _ D). pose proof (semicircle_le1 s). pose proof (Rinv_0_lt_compat _ G). unfold Rdiv. cbn. nra.
Qed.
End Area.
