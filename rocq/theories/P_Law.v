(** From moments to counts: the semicircle law for step functions. *)
From Coq Require Import List ZArith Bool Arith Lia Reals Lra.
From Coquelicot Require Import Coquelicot.
From Verif Require Import Base M_Analytic S_Generate S_Normal S_Rotate S_Moments S_Law P_Generate P_Analytic P_Surmise P_Rotate T_Rotate P_Moments P_Wishart P_Approx P_Semi P_SemiBand.
Import ListNotations.
Local Open Scope R_scope.
Local Notation length := List.length.

Ltac rr := match goal with |- ?x = ?y => change (@eq R x y) end; lra.
(** ** The semicircle law *)
Lemma semicircle_R1 x : goe_R1 2 x = 2 * semicircle x.
Proof. rewrite R1_eq by lia. unfold semicircle. cbn [INR]. replace (2 * (1 + 1) - x * x) with (4 - x * x) by ring. field. apply PI_neq0. Qed.
Lemma semicircle_continuous x : continuous semicircle x.
Proof.
  apply (continuous_ext (fun x => / 2 * goe_R1 2 x)); [intro y; cbv beta; rewrite semicircle_R1; lra|]. apply (continuous_mult (K := R_AbsRing)); [apply continuous_const|]. apply R1_continuous. lia.
Qed.
Lemma semicircle_nonneg x : 0 <= semicircle x.
Proof. pose proof (R1_nonneg 2 ltac:(lia) x) as H. rewrite semicircle_R1 in H. lra. Qed.
Lemma semicircle_le1 x : semicircle x <= 1.
Proof.
  unfold semicircle. pose proof PI2_1 as HP. assert (sqrt (4 - x * x) <= 2) as H by (apply Rle_trans with (sqrt (2 * 2)); [apply sqrt_le_1_alt; nra|rewrite sqrt_square; lra]). pose proof (sqrt_pos (4 - x * x)).
  apply (Rmult_le_reg_r (2 * PI)); [lra|]. unfold Rdiv. rewrite Rmult_assoc, Rinv_l by lra. lra.
Qed.
Lemma semicircle_out x : 2 <= Rabs x -> semicircle x = 0.
Proof. intro H. unfold semicircle. rewrite sqrt_neg_0; [unfold Rdiv; ring|]. assert (x * x = Rabs x * Rabs x) as -> by (rewrite <- Rabs_mult, Rabs_pos_eq; nra). nra. Qed.
Definition mass (t : R) : R := RInt semicircle (-2) t.
Lemma semicircle_ex a b : ex_RInt semicircle a b.
Proof. apply (ex_RInt_continuous (V := R_CompleteNormedModule)). intros; apply semicircle_continuous. Qed.
Lemma ramped_ex t d a b : ex_RInt (fun x => ramp t d x * semicircle x) a b.
Proof. apply (ex_RInt_continuous (V := R_CompleteNormedModule)). intros x _. apply (continuous_mult (K := R_AbsRing)); [apply ramp_continuous|apply semicircle_continuous]. Qed.
Lemma RInt_zero f a b : (forall x, Rmin a b < x < Rmax a b -> f x = 0) -> RInt f a b = 0.
Proof. intro H. rewrite (RInt_ext f (fun _ => 0)) by exact H. rewrite RInt_const. unfold scal. cbn. unfold mult. cbn. ring. Qed.
Lemma RInt_one a b : RInt (fun _ => 1) a b = b - a.
Proof. rewrite RInt_const. unfold scal. cbn. unfold mult. cbn. ring. Qed.
Lemma mass_step a b : RInt semicircle a b = mass b - mass a.
Proof.
  pose proof (RInt_Chasles (V := R_CompleteNormedModule) semicircle (-2) a b (semicircle_ex _ _) (semicircle_ex _ _)) as H. change (mass a + RInt semicircle a b = mass b) in H. lra.
Qed.
Lemma mass_slope a b : a <= b -> mass a <= mass b <= mass a + (b - a).
Proof.
  intro H. pose proof (mass_step a b) as E. pose proof (RInt_ge_0 semicircle a b H (semicircle_ex _ _) ltac:(intros; apply semicircle_nonneg)).
  assert (RInt semicircle a b <= RInt (fun _ => 1) a b) as G by (apply RInt_le; [exact H|apply semicircle_ex|apply ex_RInt_const|intros; apply semicircle_le1]).
  rewrite RInt_one in G. lra.
Qed.
Lemma ramp_mass t d : 0 < d -> mass t <= RInt (fun x => ramp t d x * semicircle x) (-2) 2 <= mass t + d.
Proof.
  intro Hd. set (f := fun x => ramp t d x * semicircle x). pose (B := 2 + Rabs t + d). pose proof (Rabs_pos t) as Ht. pose proof (Rle_abs t). pose proof (Rle_abs (- t)) as Ht'. rewrite Rabs_Ropp in Ht'.
  assert (forall a b, ex_RInt f a b) as EX by (intros; apply ramped_ex).
  assert (forall a b c, RInt f a c = RInt f a b + RInt f b c) as CH by (intros a b c; symmetry; exact (RInt_Chasles (V := R_CompleteNormedModule) f a b c (EX _ _) (EX _ _))).
  assert (RInt f (-2) 2 = RInt f (- B) B) as ->.
  { rewrite (CH (- B) (-2) B), (CH (-2) 2 B), (RInt_zero f (- B) (-2)), (RInt_zero f 2 B); [rr| |].
    - intros x Hx. rewrite Rmin_left, Rmax_right in Hx by (unfold B; lra). unfold f. rewrite semicircle_out; [ring|]. rewrite Rabs_pos_eq; lra.
    - intros x Hx. rewrite Rmin_left, Rmax_right in Hx by (unfold B; lra). unfold f. rewrite semicircle_out; [ring|]. rewrite Rabs_left; lra. }
  rewrite (CH (- B) t B), (CH t (t + d) B), (RInt_zero f (t + d) B).
  2:{ intros x Hx. rewrite Rmin_left, Rmax_right in Hx by (unfold B; lra). unfold f. rewrite ramp_right by lra. ring. }
  assert (RInt f (- B) t = mass t) as ->.
  { rewrite (RInt_ext f semicircle).
    - rewrite mass_step. unfold mass at 2. rewrite (RInt_zero semicircle (-2) (- B)); [rr|]. intros x Hx. rewrite Rmin_right, Rmax_left in Hx by (unfold B; lra). apply semicircle_out. rewrite Rabs_left; lra.
    - intros x Hx. rewrite Rmin_left, Rmax_right in Hx by (unfold B; lra). unfold f. rewrite ramp_left by lra. rr. }
  assert (0 <= RInt f t (t + d)) by (apply RInt_ge_0; [lra|apply EX|]; intros x _; apply Rmult_le_pos; [apply (ramp_range t d x Hd)|apply semicircle_nonneg]).
  assert (RInt f t (t + d) <= RInt (fun _ => 1) t (t + d)) as G.
  { apply RInt_le; [lra|apply EX|apply ex_RInt_const|]. intros x _. unfold f. pose proof (ramp_range t d x Hd). pose proof (semicircle_nonneg x). pose proof (semicircle_le1 x). nra. }
  rewrite RInt_one in G. lra.
Qed.

(** ** Polynomials under the law *)
Definition pmean (cs : list R) : R := SumTo (length cs) (fun k => nth k cs 0 * semicircle_moment k).
Lemma peval_sum cs x : peval cs x = SumTo (length cs) (fun k => nth k cs 0 * x ^ k).
Proof.
  induction cs as [|c cs IH]; [reflexivity|]. cbn [length]. rewrite SumTo_shift. cbn [nth pow]. cbn [peval fold_right]. fold (peval cs x). rewrite IH, <- SumTo_scale, Rmult_1_r. f_equal. apply SumTo_ext. intros; ring.
Qed.
Lemma is_RInt_SumTo N (f : nat -> R -> R) v a b : (forall k, (k < N)%nat -> is_RInt (f k) a b (v k)) -> is_RInt (fun x => SumTo N (fun k => f k x)) a b (SumTo N v).
Proof.
  induction N as [|N IH]; intro H; cbn [SumTo].
  - pose proof (is_RInt_const (V := R_NormedModule) a b 0) as Z. unfold scal in Z. cbn in Z. unfold mult in Z. cbn in Z. rewrite Rmult_0_r in Z. exact Z.
  - apply (is_RInt_plus (V := R_NormedModule) (fun x => SumTo N (fun k => f k x)) (f N)); auto.
Qed.
Lemma pmean_int cs : is_RInt (fun x => peval cs x * semicircle x) (-2) 2 (pmean cs).
Proof.
  apply (is_RInt_ext (fun x => SumTo (length cs) (fun k => nth k cs 0 * (x ^ k * semicircle x)))).
  - intros x _. rewrite peval_sum. rewrite (Rmult_comm (SumTo _ _)), <- SumTo_scale. apply SumTo_ext. intros; ring.
  - unfold pmean. apply (is_RInt_SumTo (length cs) (fun k x => nth k cs 0 * (x ^ k * semicircle x))). intros k _.
    pose proof (band_moment 2 k ltac:(lia)) as H. assert (sqrt (2 * INR 2) = 2) as E2 by (cbn [INR]; replace (2 * (1 + 1)) with (2 * 2) by ring; apply sqrt_square; lra). rewrite E2 in H.
    pose proof (is_RInt_scal (V := R_NormedModule) _ _ _ (nth k cs 0 / 2) _ H) as G. unfold scal in G. cbn -[pow] in G. unfold mult in G. cbn -[pow] in G.
    match type of G with is_RInt _ _ _ ?v => replace v with (nth k cs 0 * semicircle_moment k) in G by (replace (2 / 2) with 1 by field; rewrite pow1; field) end.
    revert G. apply is_RInt_ext. intros x _. cbv beta. rewrite semicircle_R1. rr.
Qed.
Lemma semicircle_total : RInt semicircle (-2) 2 = 1.
Proof.
  apply (is_RInt_unique (V := R_CompleteNormedModule)). pose proof (pmean_int [1]) as H. unfold pmean in H. cbn [length SumTo nth] in H. rewrite semi_0 in H. replace (0 + 1 * 1) with 1 in H by ring.
  revert H. apply is_RInt_ext. intros x _. cbn. rr.
Qed.
Lemma pmean_near cs f w eta : (forall x, ex_RInt (fun x => f x * semicircle x) (-2) x) -> RInt (fun x => f x * semicircle x) (-2) 2 = w -> (forall x, -2 < x < 2 -> Rabs (f x - peval cs x) <= eta) -> Rabs (pmean cs - w) <= eta.
Proof.
  intros EX <- H. pose proof (pmean_int cs) as P. pose proof (RInt_correct (V := R_CompleteNormedModule) _ _ _ (EX 2)) as Q. pose proof (RInt_correct (V := R_CompleteNormedModule) _ _ _ (semicircle_ex (-2) 2)) as T. rewrite semicircle_total in T.
  pose proof (is_RInt_scal (V := R_NormedModule) _ _ _ eta _ T) as TE.
  pose proof (is_RInt_minus (V := R_NormedModule) _ _ _ _ _ _ P Q) as D. unfold minus, plus, opp in D. cbn in D.
  assert (Rabs (pmean cs + - RInt (fun x => f x * semicircle x) (-2) 2) <= eta * 1).
  { apply Rabs_le. split.
    - pose proof (is_RInt_scal (V := R_NormedModule) _ _ _ (- eta) _ T) as TN. unfold scal in TN. cbn in TN. unfold mult in TN. cbn in TN. replace (- (eta * 1)) with (- eta * 1) by ring.
      refine (is_RInt_le _ _ (-2) 2 _ _ ltac:(lra) TN D _). intros x Hx. specialize (H x Hx). pose proof (semicircle_nonneg x). cbn. apply Rabs_le_between in H. nra.
    - unfold scal in TE. cbn in TE. unfold mult in TE. cbn in TE. refine (is_RInt_le _ _ (-2) 2 _ _ ltac:(lra) D TE _). intros x Hx. specialize (H x Hx). pose proof (semicircle_nonneg x). cbn. apply Rabs_le_between in H. nra. }
  unfold Rminus. lra.
Qed.
Lemma small_power C e : 0 <= C -> 0 < e -> exists M0, forall M, (M0 <= M)%nat -> C * (4 / 9) ^ M <= e.
Proof.
  intros HC He. destruct (pow_lt_1_zero (4 / 9) ltac:(rewrite Rabs_pos_eq; lra) (e / (C + 1)) ltac:(apply Rdiv_lt_0_compat; lra)) as (M0 & H). exists M0. intros M HM. specialize (H M ltac:(lia)).
  pose proof (pow_le (4 / 9) M ltac:(lra)) as P. rewrite Rabs_pos_eq in H by exact P. apply (Rmult_lt_compat_l (C + 1)) in H; [|lra]. replace ((C + 1) * (e / (C + 1))) with e in H by (field; lra). nra.
Qed.
Lemma ramp_sides t d e : 0 < d -> 0 < e -> exists ps qs, (forall x, peval ps x <= ramp t d x <= peval qs x) /\ Rabs (pmean ps - RInt (fun x => ramp t d x * semicircle x) (-2) 2) <= e /\ Rabs (pmean qs - RInt (fun x => ramp t d x * semicircle x) (-2) 2) <= e.
Proof.
  intros Hd He. destruct (ramp_bracket t d (e / 4) Hd ltac:(lra)) as (r & C & D & P & C0 & H). destruct (small_power C (e / 4) C0 ltac:(lra)) as (M0 & HM0). set (M := (D + M0)%nat).
  specialize (H M ltac:(unfold M; lia)). specialize (HM0 M ltac:(unfold M; lia)).
  assert (IsPoly (fun x => e / 4 + C * (x / 3) ^ (2 * M))) as PE.
  { apply (ispoly_add (fun _ => e / 4)); [apply ispoly_const|]. apply ispoly_scale. apply ispoly_pow. apply (ispoly_ext (fun x => / 3 * x)); [intro; field|]. apply ispoly_scale, ispoly_id. }
  destruct (ispoly_add _ _ P (ispoly_scale (-1) _ PE)) as (ps & Hps). destruct (ispoly_add _ _ P PE) as (qs & Hqs). exists ps, qs.
  assert (forall x, -2 < x < 2 -> e / 4 + C * (x / 3) ^ (2 * M) <= e / 2) as SM.
  { intros x Hx. rewrite pow_mult. assert ((x / 3) ^ 2 <= 4 / 9) as Q by (cbn [pow]; nra). assert (0 <= (x / 3) ^ 2) as Q0 by (cbn [pow]; nra). pose proof (pow_incr _ _ M (conj Q0 Q)). assert (C * ((x / 3) ^ 2) ^ M <= C * (4 / 9) ^ M) by (apply Rmult_le_compat_l; assumption). lra. }
  split; [|split].
  - intro x. rewrite <- Hps, <- Hqs. specialize (H x). apply Rabs_le_between in H. lra.
  - apply (pmean_near ps (ramp t d)); [intro; apply ramped_ex|reflexivity|]. intros x Hx. rewrite <- Hps. specialize (H x). specialize (SM x Hx). apply Rabs_le_between in H. apply Rabs_le. lra.
  - apply (pmean_near qs (ramp t d)); [intro; apply ramped_ex|reflexivity|]. intros x Hx. rewrite <- Hqs. specialize (H x). specialize (SM x Hx). apply Rabs_le_between in H. apply Rabs_le. lra.
Qed.
(** Polynomials around the step at [t]. *)
Lemma step_sides t e : 0 < e -> exists ps qs, (forall x, peval ps x <= if Rlt_dec x t then 1 else 0) /\ (forall x, (if Rle_dec x t then 1 else 0) <= peval qs x) /\
  Rabs (pmean ps - mass t) <= e /\ Rabs (pmean qs - mass t) <= e.
Proof.
  intro He. set (d := e / 4). assert (0 < d) as Hd by (unfold d; lra). destruct (ramp_sides (t - d) d d Hd Hd) as (ps & ps' & Hp & Mp & _). destruct (ramp_sides t d d Hd Hd) as (qs' & qs & Hq & _ & Mq).
  exists ps, qs. pose proof (ramp_mass (t - d) d Hd) as R1. pose proof (ramp_mass t d Hd) as R2. pose proof (mass_slope (t - d) t ltac:(lra)) as S1. split; [|split; [|split]].
  - intro x. destruct (Hp x) as [H _]. apply (Rle_trans _ _ _ H). destruct (Rlt_dec x t); [apply (ramp_range (t - d) d x Hd)|]. rewrite ramp_right by lra. lra.
  - intro x. destruct (Hq x) as [_ H]. refine (Rle_trans _ _ _ _ H). destruct (Rle_dec x t); [rewrite ramp_left by lra; lra|]. apply (ramp_range t d x Hd).
  - apply Rabs_le_between in Mp. apply Rabs_le. unfold d in *. lra.
  - apply Rabs_le_between in Mq. apply Rabs_le. unfold d in *. lra.
Qed.

(** ** Matrices *)
Lemma sq_between p z q m : p <= z -> z <= q -> (z - m) ^ 2 <= 1 * (p - m) ^ 2 + 1 * (q - m) ^ 2.
Proof.
  intros H1 H2. cbn [pow]. destruct (Rle_dec m z).
  - pose proof (Rmult_le_pos (q - z) ((q - m) + (z - m)) ltac:(lra) ltac:(lra)). pose proof (Rle_0_sqr (p - m)) as S. unfold Rsqr in S. lra.
  - pose proof (Rmult_le_pos (z - p) ((m - p) + (m - z)) ltac:(lra) ltac:(lra)). pose proof (Rle_0_sqr (q - m)) as S. unfold Rsqr in S. lra.
Qed.
Lemma sq_small u d e : - d <= u <= d -> d <= 1 -> d <= e / 4 -> u ^ 2 <= e / 4.
Proof. intros H H1 H2. pose proof (Rmult_le_pos (d - u) (d + u) ltac:(lra) ltac:(lra)). pose proof (Rmult_le_pos d (1 - d) ltac:(lra) ltac:(lra)). cbn [pow]. lra. Qed.
Section Law.
Variable K : nat -> nat.
Variable lam : nat -> list R -> list R.
Hypothesis lam_length : forall n l, length l = K n -> length (lam n l) = n.
Variable v : list nat -> nat -> R.
Hypothesis averages : forall ks n, NormalAverage (K n) (fun l => power_sums ks (lam n l)) (v ks n).
Hypothesis limits : forall ks, is_lim_seq (fun n => v ks n / (sqrt (INR n) ^ fold_right Nat.add O ks * INR n ^ length ks)) (fold_right Rmult 1 (map semicircle_moment ks)).

(** The mean of a polynomial over the eigenvalues in units of sqrt n. *)
Definition share (cs : list R) (n : nat) (l : list R) : R := total (map (fun x => peval cs (x / sqrt (INR n))) (lam n l)) / INR n.
Lemma share_sum cs n l : (0 < n)%nat -> share cs n l = SumTo (length cs) (fun k => nth k cs 0 / (sqrt (INR n) ^ k * INR n) * power_sum k (lam n l)).
Proof.
  intro Hn. assert (0 < INR n) as Hp by now apply lt_0_INR. pose proof (sqrt_lt_R0 _ Hp) as Hs. unfold share, power_sum. induction (lam n l) as [|x t IH].
  - cbn. rewrite (SumTo_ext _ _ (fun _ => 0)) by (intros; ring). rewrite SumTo_const. unfold Rdiv. ring.
  - unfold total in *. cbn [map fold_right]. rewrite Rdiv_plus_distr, IH. unfold Rdiv at 1.
    rewrite peval_sum, (Rmult_comm (SumTo _ _)), <- SumTo_scale, <- SumTo_add. apply SumTo_ext. intros k _. unfold Rdiv at 1. rewrite Rpow_mult_distr, pow_inv. pose proof (pow_lt _ k Hs). field. split; lra.
Qed.
Lemma share_average cs : exists a : nat -> R, (forall n, (0 < n)%nat -> NormalAverage (K n) (share cs n) (a n)) /\ is_lim_seq a (pmean cs).
Proof.
  exists (fun n => SumTo (length cs) (fun k => nth k cs 0 / (sqrt (INR n) ^ k * INR n) * v [k] n)). split.
  - intros n Hn. apply (navg_ext _ (fun l => SumTo (length cs) (fun k => nth k cs 0 / (sqrt (INR n) ^ k * INR n) * power_sum k (lam n l)))); [intros; now rewrite share_sum|].
    apply (navg_SumTo (K n) (length cs) (fun k l => nth k cs 0 / (sqrt (INR n) ^ k * INR n) * power_sum k (lam n l))). intros k _. apply navg_scale. refine (navg_ext _ _ _ _ _ (averages [k] n)). intros l _. unfold power_sums. cbn. ring.
  - unfold pmean. apply (lim_SumTo (length cs) (fun k n => nth k cs 0 / (sqrt (INR n) ^ k * INR n) * v [k] n)). intros k _. pose proof (limits [k]) as L. cbn [fold_right map length Nat.add] in L. rewrite Nat.add_0_r, Rmult_1_r in L.
    refine (is_lim_seq_ext _ _ _ _ (is_lim_seq_scal_l _ (nth k cs 0) _ L)). intro n. cbn [pow]. rewrite Rmult_1_r. unfold Rdiv. ring.
Qed.
Lemma share_square cs : exists a : nat -> R, (forall n, (0 < n)%nat -> NormalAverage (K n) (fun l => share cs n l * share cs n l) (a n)) /\ is_lim_seq a (pmean cs * pmean cs).
Proof.
  exists (fun n => SumTo (length cs) (fun j => SumTo (length cs) (fun k => nth j cs 0 * nth k cs 0 / (sqrt (INR n) ^ (j + k) * (INR n * INR n)) * v [j; k] n))). split.
  - intros n Hn. apply (navg_ext _ (fun l => SumTo (length cs) (fun j => SumTo (length cs) (fun k => nth j cs 0 * nth k cs 0 / (sqrt (INR n) ^ (j + k) * (INR n * INR n)) * power_sums [j; k] (lam n l))))).
    { intros l _. rewrite share_sum by exact Hn. rewrite SumTo_product. apply SumTo_ext. intros j _. apply SumTo_ext. intros k _. unfold power_sums. cbn [map fold_right]. rewrite Rmult_1_r, pow_add.
      assert (0 < INR n) as Hp by now apply lt_0_INR. pose proof (sqrt_lt_R0 _ Hp) as Hs. pose proof (pow_lt _ k Hs). pose proof (pow_lt _ j Hs). field. repeat split; lra. }
    apply (navg_SumTo (K n) (length cs) (fun j l => SumTo (length cs) (fun k => nth j cs 0 * nth k cs 0 / (sqrt (INR n) ^ (j + k) * (INR n * INR n)) * power_sums [j; k] (lam n l)))). intros j _.
    apply (navg_SumTo (K n) (length cs) (fun k l => nth j cs 0 * nth k cs 0 / (sqrt (INR n) ^ (j + k) * (INR n * INR n)) * power_sums [j; k] (lam n l))). intros k _. apply navg_scale, averages.
  - unfold pmean. rewrite SumTo_product. apply (lim_SumTo (length cs) (fun j n => SumTo (length cs) (fun k => nth j cs 0 * nth k cs 0 / (sqrt (INR n) ^ (j + k) * (INR n * INR n)) * v [j; k] n))). intros j _.
    apply (lim_SumTo (length cs) (fun k n => nth j cs 0 * nth k cs 0 / (sqrt (INR n) ^ (j + k) * (INR n * INR n)) * v [j; k] n)). intros k _. pose proof (limits [j; k]) as L. cbn [fold_right map length Nat.add] in L. rewrite Nat.add_0_r, Rmult_1_r in L.
    replace (nth j cs 0 * semicircle_moment j * (nth k cs 0 * semicircle_moment k)) with (nth j cs 0 * nth k cs 0 * (semicircle_moment j * semicircle_moment k)) by ring.
    refine (is_lim_seq_ext _ _ _ _ (is_lim_seq_scal_l _ (nth j cs 0 * nth k cs 0) _ L)). intro n. cbn [pow]. rewrite Rmult_1_r. unfold Rdiv. ring.
Qed.
Lemma total_le {A} (f g : A -> R) l : (forall a, f a <= g a) -> total (map f l) <= total (map g l).
Proof. intro H. unfold total. induction l as [|a l IH]; cbn [map fold_right]; [lra|]. specialize (H a). lra. Qed.
(** Any count between those of the levels below and of the levels up to t sqrt n. *)
Variable t : R.
Variable c : nat -> list R -> R.
Hypothesis between : forall n l, (0 < n)%nat -> length l = K n -> count_lt (t * sqrt (INR n)) (lam n l) <= c n l <= count_le (t * sqrt (INR n)) (lam n l).
Lemma count_sides ps qs n l : (forall x, peval ps x <= if Rlt_dec x t then 1 else 0) -> (forall x, (if Rle_dec x t then 1 else 0) <= peval qs x) ->
  (0 < n)%nat -> length l = K n -> share ps n l <= c n l / INR n <= share qs n l.
Proof.
  intros Hp Hq Hn Hl. assert (0 < INR n) as Hi by now apply lt_0_INR. pose proof (sqrt_lt_R0 _ Hi) as Hs. destruct (between n l Hn Hl) as [B1 B2].
  assert (0 < / INR n) as Hv by now apply Rinv_0_lt_compat. unfold share, Rdiv at 1 4. unfold Rdiv at 2. split; apply Rmult_le_compat_r; try lra.
  - refine (Rle_trans _ _ _ _ B1). apply total_le. intro x. apply (Rle_trans _ _ _ (Hp (x / sqrt (INR n)))). destruct (Rlt_dec (x / sqrt (INR n)) t) as [L|L]; destruct (Rlt_dec x (t * sqrt (INR n))) as [G|G]; try lra.
    exfalso. apply G. apply (Rmult_lt_compat_r (sqrt (INR n))) in L; [|exact Hs]. unfold Rdiv in L. rewrite Rmult_assoc, Rinv_l, Rmult_1_r in L by lra. exact L.
  - apply (Rle_trans _ _ _ B2). apply total_le. intro x. refine (Rle_trans _ _ _ _ (Hq (x / sqrt (INR n)))). destruct (Rle_dec (x / sqrt (INR n)) t) as [L|L]; destruct (Rle_dec x (t * sqrt (INR n))) as [G|G]; try lra.
    exfalso. apply L. apply (Rmult_le_reg_r (sqrt (INR n))); [exact Hs|]. unfold Rdiv. rewrite Rmult_assoc, Rinv_l, Rmult_1_r by lra. exact G.
Qed.
Lemma count_mean e : 0 < e -> exists N, forall n, (N <= n)%nat -> AverageWithin (K n) (fun l => c n l / INR n) (mass t - e) (mass t + e).
Proof.
  intro He. destruct (step_sides t (e / 2) ltac:(lra)) as (ps & qs & Hp & Hq & Mp & Mq). destruct (share_average ps) as (a & A1 & A2). destruct (share_average qs) as (b & B1 & B2).
  apply is_lim_seq_spec in A2. apply is_lim_seq_spec in B2. destruct (A2 (mkposreal (e / 2) ltac:(lra))) as (N1 & H1). destruct (B2 (mkposreal (e / 2) ltac:(lra))) as (N2 & H2). cbn in H1, H2.
  exists (S (N1 + N2)). intros n Hn. exists (share ps n), (share qs n), (a n), (b n). specialize (H1 n ltac:(lia)). specialize (H2 n ltac:(lia)). apply Rabs_def2 in H1. apply Rabs_def2 in H2. apply Rabs_le_between in Mp. apply Rabs_le_between in Mq.
  split; [intros l Hl; apply count_sides; auto; lia|]. split; [apply A1; lia|]. split; [apply B1; lia|]. lra.
Qed.
Lemma count_square e : 0 < e -> exists N, forall n, (N <= n)%nat -> exists h w, (forall l, length l = K n -> (c n l / INR n - mass t) ^ 2 <= h l) /\ NormalAverage (K n) h w /\ w <= e.
Proof.
  intro He. set (d := Rmin 1 (e / 4)). assert (0 < d) as Hd by (unfold d; apply Rmin_case; lra). assert (d <= 1 /\ d <= e / 4) as [D1 D2] by (unfold d; split; [apply Rmin_l|apply Rmin_r]).
  destruct (step_sides t d Hd) as (ps & qs & Hp & Hq & Mp & Mq). set (m := mass t) in *.
  assert (forall cs, Rabs (pmean cs - m) <= d -> exists x : nat -> R, (forall n, (0 < n)%nat -> NormalAverage (K n) (fun l => (share cs n l - m) ^ 2) (x n)) /\ exists N, forall n, (N <= n)%nat -> x n <= e / 2) as Q.
  { intros cs Mc. destruct (share_average cs) as (a & A1 & A2). destruct (share_square cs) as (b & B1 & B2). exists (fun n => 1 * (1 * b n + (- 2 * m) * a n) + m ^ 2 * 1). split.
    - intros n Hn. pose proof (navg_lin (K n) _ _ _ _ 1 (- 2 * m) (B1 n Hn) (A1 n Hn)) as L. pose proof (navg_lin (K n) _ _ _ _ 1 (m ^ 2) L (navg_const (K n) 1)) as L2. refine (navg_ext _ _ _ _ _ L2). intros l _. ring.
    - assert (is_lim_seq (fun n => 1 * (1 * b n + (- 2 * m) * a n) + m ^ 2 * 1) ((pmean cs - m) ^ 2)) as L.
      { replace ((pmean cs - m) ^ 2) with (1 * (1 * (pmean cs * pmean cs) + (- 2 * m) * pmean cs) + m ^ 2 * 1) by ring.
        apply is_lim_seq_plus'; [|apply is_lim_seq_const]. apply (is_lim_seq_scal_l _ 1 (1 * (pmean cs * pmean cs) + (- 2 * m) * pmean cs)). apply is_lim_seq_plus'; [apply (is_lim_seq_scal_l _ 1 (pmean cs * pmean cs)); exact B2|apply (is_lim_seq_scal_l _ (- 2 * m) (pmean cs)); exact A2]. }
      apply is_lim_seq_spec in L. destruct (L (mkposreal (e / 4) ltac:(lra))) as (N & HN). cbn [pos] in HN. exists N. intros n Hn. specialize (HN n Hn). apply Rabs_def2 in HN. apply Rabs_le_between in Mc.
      assert ((pmean cs - m) ^ 2 <= e / 4) by (apply (sq_small _ d); [exact Mc|exact D1|exact D2]). lra. }
  destruct (Q ps Mp) as (x & X1 & N1 & X2). destruct (Q qs Mq) as (y & Y1 & N2 & Y2). exists (S (N1 + N2)). intros n Hn. exists (fun l => 1 * (share ps n l - m) ^ 2 + 1 * (share qs n l - m) ^ 2), (1 * x n + 1 * y n).
  split; [|split; [apply navg_lin; [apply X1; lia|apply Y1; lia]|specialize (X2 n ltac:(lia)); specialize (Y2 n ltac:(lia)); lra]].
  intros l Hl. destruct (count_sides ps qs n l Hp Hq ltac:(lia) Hl) as [S1 S2]. now apply sq_between.
Qed.
End Law.
