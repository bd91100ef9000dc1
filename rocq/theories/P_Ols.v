(** The least-squares line, and non-negativity / shift invariance of the sampled rigidity. *)
From Coq Require Import List ZArith Bool Arith Lia Reals Lra.
From Verif Require Import Base S_Order S_EigVals S_Trim M_Step M_Quad S_Quad P_Order P_Step P_EigVals P_TrimStat P_Quad.
Import ListNotations.
Local Open Scope R_scope.
Local Notation length := List.length.

Lemma Rsum_cons a l : Rsum (a :: l) = a + Rsum l.
Proof. reflexivity. Qed.
Lemma Rsum_lin (A : Type) (f : A -> R) (l : list A) (c : R) : Rsum (map (fun v => f v - c) l) = Rsum (map f l) - INR (length l) * c.
Proof. induction l as [|v l IH]; [cbn; lra|]. cbn [map length]. rewrite !Rsum_cons, IH, S_INR. lra. Qed.
Lemma Rmean_INR l : Rmean l = Rsum l / INR (length l).
Proof. unfold Rmean. now rewrite INR_IZR_INZ || reflexivity. Qed.
Lemma Rsum_dev (l : list R) : l <> [] -> Rsum (map (fun v => v - Rmean l) l) = 0.
Proof.
  intros H. rewrite (Rsum_lin R (fun v => v)), map_id, Rmean_INR. field. apply not_0_INR. now destruct l.
Qed.

(** Second moments about given centres. *)
Definition Sxy (x y : list R) (mx my : R) := Rsum (map (fun p => (fst p - mx) * (snd p - my)) (combine x y)).
Lemma np_mul_dev (x y : list R) mx my : Rsum (np_mul (map (fun v => v - mx) x) (map (fun v => v - my) y)) = Sxy x y mx my.
Proof.
  unfold Sxy, np_mul. f_equal. revert y. induction x as [|a x IH]; intros [|b y]; try reflexivity. cbn [map combine]. now rewrite IH.
Qed.
Lemma slope_R x y : slope x y = if Req_EM_T (Sxy x x (Rmean x) (Rmean x)) 0 then 0 else Sxy x y (Rmean x) (Rmean y) / Sxy x x (Rmean x) (Rmean x).
Proof.
  unfold slope. rewrite !nmean_R, !nsum_R. cbn [nsub Num_R]. rewrite !np_mul_dev. cbn [neq n0 ndiv Num_R].
  now destruct (Req_EM_T _ _).
Qed.
Lemma intercept_R x y k : intercept x y k = Rmean y - k * Rmean x.
Proof. unfold intercept. now rewrite !nmean_R. Qed.
Lemma Sxx_nonneg x m : 0 <= Sxy x x m m.
Proof. unfold Sxy. induction x as [|a x IH]; [cbn; lra|]. cbn [combine map]. rewrite Rsum_cons. cbn [fst snd]. pose proof (Rle_0_sqr (a - m)) as Q. unfold Rsqr in Q. lra. Qed.
Lemma Sxx_zero x m : Sxy x x m m = 0 -> Forall (fun v => v = m) x.
Proof.
  unfold Sxy. induction x as [|a x IH]; [constructor|]. cbn [combine map]. rewrite Rsum_cons. cbn [fst snd]. intros H.
  pose proof (Sxx_nonneg x m) as P. unfold Sxy in P. pose proof (Rle_0_sqr (a - m)) as Q. unfold Rsqr in Q.
  constructor; [|apply IH; lra]. assert (Z : (a - m) * (a - m) = 0) by lra. apply Rmult_integral in Z. lra.
Qed.
Lemma Sxy_const x y m n : Forall (fun v => v = m) x -> Sxy x y m n = 0.
Proof.
  unfold Sxy. intros H. revert y. induction H as [|a x -> _ IH]; intros [|b y]; try reflexivity. cbn [combine map]. rewrite Rsum_cons, IH. cbn. lra.
Qed.

Lemma residual_form (x y : list R) mx my a b : length x = length y ->
  SumSq (Residuals x y a b) = Sxy y y my my - 2 * a * Sxy x y mx my + a * a * Sxy x x mx mx
    + INR (length x) * ((my - a * mx - b) * (my - a * mx - b))
    + 2 * (my - a * mx - b) * (Rsum (map (fun v => v - my) y) - a * Rsum (map (fun v => v - mx) x)).
Proof.
  unfold SumSq, Residuals, Sxy. revert y. induction x as [|u x IH]; intros [|v y] H; try discriminate; [cbn; lra|].
  injection H as H. cbn [combine map length]. rewrite !Rsum_cons, IH by exact H. rewrite S_INR. cbn [fst snd]. ring.
Qed.
Lemma residual_sum (x y : list R) a b : length x = length y ->
  Rsum (Residuals x y a b) = Rsum y - a * Rsum x - INR (length x) * b.
Proof.
  unfold Residuals. revert y. induction x as [|u x IH]; intros [|v y] H; try discriminate; [cbn; lra|].
  injection H as H. cbn [combine map length]. rewrite !Rsum_cons, IH by exact H. rewrite S_INR. cbn [fst snd]. ring.
Qed.

Lemma ols_minimal (x y : list R) : x <> [] -> length x = length y ->
  forall a b, SumSq (Residuals x y (slope x y) (intercept x y (slope x y))) <= SumSq (Residuals x y a b).
Proof.
  intros Hx Hl a b. assert (Hy : y <> []) by (now destruct x, y).
  rewrite !(residual_form x y (Rmean x) (Rmean y)) by exact Hl. rewrite !Rsum_dev by assumption.
  rewrite intercept_R. set (K := slope x y). pose proof (pos_INR (length x)) as Hn.
  pose proof (slope_R x y) as HK. fold K in HK. pose proof (Sxx_nonneg x (Rmean x)) as Hv.
  assert (HN : K * Sxy x x (Rmean x) (Rmean x) = Sxy x y (Rmean x) (Rmean y)).
  { destruct (Req_EM_T _ _) as [E|E] in HK.
    - rewrite E, (Sxy_const x y _ _ (Sxx_zero _ _ E)). lra.
    - rewrite HK. field. exact E. }
  rewrite <- HN. set (V := Sxy x x (Rmean x) (Rmean x)) in *. set (e := Rmean y - a * Rmean x - b).
  replace (Rmean y - K * Rmean x - (Rmean y - K * Rmean x)) with 0 by ring.
  assert (0 <= V * ((a - K) * (a - K))) by (apply Rmult_le_pos; [exact Hv|apply Rle_0_sqr]).
  assert (0 <= INR (length x) * (e * e)) by (apply Rmult_le_pos; [exact Hn|apply Rle_0_sqr]). nra.
Qed.
Lemma ols_sum_zero (x y : list R) : x <> [] -> length x = length y ->
  Rsum (Residuals x y (slope x y) (intercept x y (slope x y))) = 0.
Proof.
  intros Hx Hl. rewrite residual_sum by exact Hl. rewrite intercept_R, !Rmean_INR, <- Hl. field. apply not_0_INR. now destruct x.
Qed.
Lemma Rmean_affine a b (x : list R) : x <> [] -> Rmean (map (fun v => a * v + b) x) = a * Rmean x + b.
Proof.
  intros H. rewrite !Rmean_INR, map_length. assert (E : Rsum (map (fun v => a * v + b) x) = a * Rsum x + INR (length x) * b).
  { clear H. induction x as [|v x IH]; [cbn; lra|]. cbn [map length]. rewrite !Rsum_cons, IH, S_INR. lra. }
  rewrite E. field. apply not_0_INR. now destruct x.
Qed.
Lemma ols_recovers (x : list R) a b u v : In u x -> In v x -> u <> v ->
  slope x (map (fun t => a * t + b) x) = a /\ intercept x (map (fun t => a * t + b) x) a = b.
Proof.
  intros Hu Hv Huv. assert (Hx : x <> []) by now destruct x.
  rewrite slope_R, intercept_R, Rmean_affine by exact Hx. split; [|lra].
  destruct (Req_EM_T _ _) as [E|E].
  - exfalso. apply Sxx_zero in E. rewrite Forall_forall in E. apply Huv. now rewrite (E u Hu), (E v Hv).
  - assert (S2 : forall m, Sxy x (map (fun t => a * t + b) x) m (a * m + b) = a * Sxy x x m m).
    { intros m. unfold Sxy. clear. induction x as [|t x IH]; [cbn; lra|]. cbn [map combine]. rewrite !Rsum_cons, IH. cbn [fst snd]. ring. }
    rewrite S2. field. exact E.
Qed.
Lemma Rmean_const (x : list R) c : x <> [] -> Forall (fun v => v = c) x -> Rmean x = c.
Proof.
  intros H Hc. replace x with (map (fun v => 0 * v + c) x) at 1; [rewrite Rmean_affine by exact H; lra|].
  clear H. induction Hc; cbn; [reflexivity|]. rewrite IHHc. f_equal. lra.
Qed.
Lemma slope_constant (x y : list R) c : Forall (fun v => v = c) x -> slope x y = 0.
Proof.
  intros H. destruct x as [|u x]; [|].
  - unfold slope. cbn. destruct (Req_EM_T 0 0); [reflexivity|lra].
  - rewrite slope_R. rewrite (Rmean_const _ c) by (auto; discriminate). rewrite (Sxy_const _ _ c c H).
    destruct (Req_EM_T 0 0); [reflexivity|lra].
Qed.

(** ** np.linspace over exact reals *)
Lemma linspace_length (a b : R) n : length (linspace a b n) = n.
Proof. unfold linspace. now rewrite map_length, seq_length. Qed.
Lemma linspace_nth (a b : R) n i : (2 <= n)%nat -> (i < n)%nat -> nth i (linspace a b n) 0 = a + INR i * ((b - a) / (INR n - 1)).
Proof.
  intros Hn Hi. unfold linspace. rewrite (nth_map_in _ _ _ 0 0%nat) by now rewrite seq_length. rewrite seq_nth by exact Hi. cbn [plus].
  replace (Nat.leb n 1) with false by (symmetry; apply Nat.leb_gt; lia).
  cbn [nadd nsub nmul ndiv nofZ Num_R]. rewrite minus_IZR, <- !INR_IZR_INZ.
  assert (INR n - 1 <> 0). { apply le_INR in Hn. cbn in Hn. lra. }
  destruct (Nat.eqb (S i) n) eqn:E; [|reflexivity]. apply Nat.eqb_eq in E. subst n. rewrite S_INR in *. field. exact H.
Qed.
Lemma linspace_uniform (a b : R) n : (2 <= n)%nat -> Uniform ((b - a) / (INR n - 1)) (linspace a b n).
Proof.
  intros Hn i x y Hx Hy. assert (Hi : (S i < n)%nat) by (rewrite <- (linspace_length a b n); apply nth_error_Some; congruence).
  apply (nth_error_nth _ _ 0) in Hx, Hy. rewrite linspace_nth in Hx, Hy by lia. subst. rewrite S_INR. ring.
Qed.
Lemma linspace_shift (a b t : R) n : (2 <= n)%nat -> linspace (a + t) (b + t) n = map (fun v => v + t) (linspace a b n).
Proof.
  intros Hn. apply (nth_ext _ _ 0 0); [now rewrite map_length, !linspace_length|]. rewrite linspace_length. intros i Hi.
  rewrite (nth_map_in _ _ _ 0 0) by now rewrite linspace_length. rewrite !linspace_nth by lia.
  replace (b + t - (a + t)) with (b - a) by ring. ring.
Qed.

(** ** Positivity of the rules *)
Lemma nth_nonneg v i : Forall (fun t => 0 <= t) v -> 0 <= nth i v 0.
Proof. intros H. destruct (lt_dec i (length v)); [|rewrite nth_overflow by lia; lra]. rewrite Forall_forall in H. apply H. now apply nth_In. Qed.
Lemma trap_nonneg g v : Increasing g -> Forall (fun t => 0 <= t) v -> 0 <= integrate_fast g v.
Proof.
  intros Hg Hv. rewrite integrate_fast_trap.
  assert (A : forall n, (n <= length g - 1)%nat -> 0 <= trap g v n); [|now apply A].
  intros n. induction n as [|n IH]; intros H; [unfold trap; cbn; lra|]. rewrite trap_S. specialize (IH ltac:(lia)).
  pose proof (Increasing_nth g n Hg ltac:(lia)). pose proof (nth_nonneg v n Hv). pose proof (nth_nonneg v (S n) Hv). nra.
Qed.
Lemma sp_uniform s g v acc i : 0 < s -> Uniform s g -> (S (S i) < length g)%nat ->
  sp g v acc (S i) = acc + s / 3 * (nth i v 0 + 4 * nth (S i) v 0 + nth (S (S i)) v 0).
Proof.
  intros Hs Hg H. unfold sp. replace (S i - 1)%nat with i by lia.
  rewrite (Uniform_nth s g i Hg), (Uniform_nth s g (S i) Hg) by lia. field. lra.
Qed.
Lemma corr_uniform s g v m : 0 < s -> Uniform s g -> (S (S m) < length g)%nat ->
  corr g v (S (S m)) = s / 12 * (5 * nth (S (S m)) v 0 + 8 * nth (S m) v 0 - nth m v 0).
Proof.
  intros Hs Hg H. unfold corr. replace (S (S m) - 1)%nat with (S m) by lia. replace (S (S m) - 2)%nat with m by lia.
  rewrite (Uniform_nth s g m Hg), (Uniform_nth s g (S m) Hg) by lia. field. lra.
Qed.
Lemma simp_nonneg s g v : 0 < s -> Uniform s g -> Forall (fun t => 0 <= t) v -> forall n, (2 * n < length g)%nat -> 0 <= simp g v n.
Proof.
  intros Hs Hg Hv n. induction n as [|n IH]; intros H; [unfold simp; cbn; lra|].
  rewrite simp_S. specialize (IH ltac:(lia)). replace (2 * n + 1)%nat with (S (2 * n)) by lia. rewrite (sp_uniform s) by (auto; lia).
  pose proof (nth_nonneg v (2*n) Hv). pose proof (nth_nonneg v (S (2*n)) Hv). pose proof (nth_nonneg v (S (S (2*n))) Hv).
  assert (0 <= s / 3) by lra. nra.
Qed.
Lemma simpson_nonneg s g v : 0 < s -> Uniform s g -> (3 <= length g)%nat -> Forall (fun t => 0 <= t) v -> 0 <= int_simps_nonunif g v.
Proof.
  intros Hs Hg Hl Hv. set (n := (length g - 1)%nat). rewrite (simpson_split g _ n) by lia.
  destruct (half_cases n) as [(E & ->)|(E & ->)].
  - pose proof (simp_nonneg s g v Hs Hg Hv (n/2) ltac:(lia)). lra.
  - assert (E3 : exists k, (n / 2 = S k)%nat) by (exists (n / 2 - 1)%nat; lia). destruct E3 as (k & E3). rewrite E3, simp_S.
    pose proof (simp_nonneg s g v Hs Hg Hv k ltac:(lia)). replace (2 * k + 1)%nat with (S (2 * k)) by lia. rewrite (sp_uniform s) by (auto; lia).
    replace n with (S (S (S (2 * k)))) by lia. rewrite (corr_uniform s) by (auto; lia).
    pose proof (nth_nonneg v (2*k) Hv). pose proof (nth_nonneg v (S (2*k)) Hv). pose proof (nth_nonneg v (S (S (2*k))) Hv).
    pose proof (nth_nonneg v (S (S (S (2*k)))) Hv). assert (0 <= s / 12) by lra. nra.
Qed.

(** ** Trapezoid on a uniform grid against the plain sum *)
Lemma Rsum_nth_S v n : (n < length v)%nat -> Rsum (firstn (S n) v) = Rsum (firstn n v) + nth n v 0.
Proof.
  revert n. induction v as [|a v IH]; intros n H; [cbn in H; lia|]. destruct n; [cbn; lra|].
  cbn [length] in H. change (firstn (S (S n)) (a :: v)) with (a :: firstn (S n) v). change (firstn (S n) (a :: v)) with (a :: firstn n v).
  rewrite !Rsum_cons, IH by lia. cbn [nth]. lra.
Qed.
Lemma trap_uniform s g v : Uniform s g -> length v = length g -> forall n, (n < length g)%nat ->
  trap g v n = s * (Rsum (firstn (S n) v) - (nth 0 v 0 + nth n v 0) / 2).
Proof.
  intros Hg Hl n. induction n as [|n IH]; intros H.
  - unfold trap. destruct v as [|a v]; [cbn in Hl; lia|]. cbn. lra.
  - rewrite trap_S, IH by lia. rewrite (Uniform_nth s g n Hg) by lia. rewrite (Rsum_nth_S v (S n)) by lia. lra.
Qed.
Lemma trap_sum_bounds s g v : 0 < s -> Uniform s g -> length v = length g -> (2 <= length g)%nat -> Forall (fun t => 0 <= t) v ->
  integrate_fast g v <= s * Rsum v /\ s * Rsum v <= 2 * integrate_fast g v.
Proof.
  intros Hs Hg Hl H2 Hv. rewrite integrate_fast_trap, (trap_uniform s) by (auto; lia).
  replace (S (length g - 1)) with (length v) by lia. rewrite firstn_all.
  pose proof (nth_nonneg v 0 Hv). pose proof (nth_nonneg v (length g - 1) Hv).
  assert (B : nth 0 v 0 + nth (length g - 1) v 0 <= Rsum v).
  { destruct v as [|a v]; [cbn in Hl; lia|]. rewrite <- Hl. cbn [length]. replace (S (length v) - 1)%nat with (length v) by lia.
    inversion Hv as [|? ? Ha Hv']; subst. destruct v as [|b v] using rev_ind; [cbn in Hl; lia|].
    rewrite Rsum_cons. cbn [nth]. rewrite app_length. cbn [length]. rewrite Nat.add_1_r. cbn [nth]. rewrite app_nth2, Nat.sub_diag by lia.
    cbn [nth]. clear - Hv'. apply Forall_app in Hv' as (Hv' & _). enough (0 <= Rsum v).
    { assert (E : Rsum (v ++ [b]) = Rsum v + b). { clear. induction v; cbn [app]; [cbn; lra|]. rewrite !Rsum_cons, IHv. lra. } lra. }
    induction Hv'; [cbn; lra|]. rewrite Rsum_cons. lra. }
  split; nra.
Qed.

(** ** Deviations *)
Lemma deviation_nonneg (st g : list R) k w : Forall (fun t => 0 <= t) (sq_lin_deviation st k w g).
Proof. unfold sq_lin_deviation. apply Forall_map, Forall_forall. intros p _. cbn. apply Rle_0_sqr. Qed.
Lemma deviation_length (st g : list R) k w : length st = length g -> length (sq_lin_deviation st k w g) = length g.
Proof. intros H. unfold sq_lin_deviation. rewrite map_length, combine_length. lia. Qed.
Lemma deviation_sum (st g : list R) k w : Rsum (sq_lin_deviation st k w g) = SumSq (Residuals g st k w).
Proof.
  unfold sq_lin_deviation, SumSq, Residuals. rewrite map_map. revert g. induction st as [|a st IH]; intros [|b g]; try reflexivity.
  cbn [combine map]. rewrite !Rsum_cons, IH. cbn [fst snd nsub nmul Num_R]. ring.
Qed.
Lemma deviation_shift (st g : list R) k w t : sq_lin_deviation st k (w - k * t) (map (fun v => v + t) g) = sq_lin_deviation st k w g.
Proof.
  unfold sq_lin_deviation. revert g. induction st as [|a st IH]; intros [|b g]; try reflexivity. cbn [combine map]. rewrite IH. f_equal.
  cbn [fst snd nsub nmul Num_R]. ring.
Qed.
Lemma Rmean_shift x t : x <> [] -> Rmean (map (fun v => v + t) x) = Rmean x + t.
Proof.
  intros H. rewrite (map_ext (fun v => v + t) (fun v => 1 * v + t)) by (intros; lra). rewrite Rmean_affine by exact H. lra.
Qed.
Lemma Sxy_shift x y m n t : Sxy (map (fun v => v + t) x) y (m + t) n = Sxy x y m n.
Proof. unfold Sxy. revert y. induction x as [|a x IH]; intros [|b y]; try reflexivity. cbn [map combine]. rewrite !Rsum_cons, IH. cbn [fst snd]. ring. Qed.
Lemma Sxx_shift x m t : Sxy (map (fun v => v + t) x) (map (fun v => v + t) x) (m + t) (m + t) = Sxy x x m m.
Proof. unfold Sxy. induction x as [|a x IH]; [reflexivity|]. cbn [map combine]. rewrite !Rsum_cons, IH. cbn [fst snd]. ring. Qed.
Lemma slope_shift x y t : x <> [] -> slope (map (fun v => v + t) x) y = slope x y.
Proof. intros H. rewrite !slope_R, Rmean_shift, Sxx_shift, Sxy_shift by exact H. reflexivity. Qed.
Lemma intercept_shift x y k t : x <> [] -> intercept (map (fun v => v + t) x) y k = intercept x y k - k * t.
Proof. intros H. rewrite !intercept_R, Rmean_shift by exact H. ring. Qed.
Lemma ndiff_shift (g : list R) t : ndiff (map (fun v => v + t) g) = ndiff g.
Proof. induction g as [|a [|b g] IH]; try reflexivity. cbn [map ndiff] in *. rewrite IH. f_equal. cbn. ring. Qed.
Lemma simps_shift (g v : list R) t : int_simps_nonunif (map (fun u => u + t) g) v = int_simps_nonunif g v.
Proof. unfold int_simps_nonunif. now rewrite ndiff_shift, map_length. Qed.
Lemma trap_shift (g v : list R) t : integrate_fast (map (fun u => u + t) g) v = integrate_fast g v.
Proof.
  rewrite !integrate_fast_trap, map_length. assert (A : forall n, (n <= length g - 1)%nat -> trap (map (fun u => u + t) g) v n = trap g v n); [|now apply A].
  intros n. induction n as [|n IH]; intros H; [reflexivity|]. rewrite !trap_S, IH by lia. rewrite !(nth_map_in _ g _ 0 0) by lia. lra.
Qed.

(** ** The step function under a map that preserves comparisons *)
Section Shift.
Context {F : Type} {N : Num F}.
Variable f : F -> F.
Hypothesis Hlt : forall a b, nlt (f a) (f b) = nlt a b.
Hypothesis Hle : forall a b, nle (f a) (f b) = nle a b.
Lemma skip_map fuel x e0 j : step_skip fuel (map f x) (f e0) j = step_skip fuel x e0 j.
Proof.
  revert j. induction fuel as [|n IH]; intros j; [reflexivity|]. cbn [step_skip]. rewrite map_length, nth_error_map.
  destruct (j <? length x)%nat; [|reflexivity]. destruct (nth_error x j); cbn [option_map]; [|reflexivity]. now rewrite Hlt, IH.
Qed.
Lemma inner_map fuel x ei c j ret : step_inner fuel (map f x) (f ei) c j ret = step_inner fuel x ei c j ret.
Proof.
  revert j ret. induction fuel as [|n IH]; intros j ret; [reflexivity|]. cbn [step_inner]. rewrite map_length, nth_error_map.
  destruct (j <? length x)%nat; [|reflexivity]. destruct (nth_error x j); cbn [option_map]; [|reflexivity]. now rewrite Hlt, IH.
Qed.
Lemma main_map fuel eigs x i j c ret : step_main fuel (map f eigs) (map f x) i j c ret = step_main fuel eigs x i j c ret.
Proof.
  revert i j c ret. induction fuel as [|n IH]; intros i j c ret; [reflexivity|]. cbn [step_main]. rewrite !map_length, !nth_error_map.
  destruct (_ && _); [|reflexivity]. destruct (nth_error x j); cbn [option_map]; [|reflexivity].
  destruct (nth_error eigs i); cbn [option_map]; [|reflexivity]. unfold nge. rewrite Hle, IH, inner_map.
  destruct (nle _ _); [reflexivity|]. destruct (step_inner _ _ _ _ _ _) as [[j' ret']| |]; now rewrite ?IH.
Qed.
Lemma step_map eigs x : step_function_fast (map f eigs) (map f x) = step_function_fast eigs x.
Proof.
  unfold step_function_fast, step_fuel, step_fast, last_opt, head_opt, ngt. rewrite !map_length, !nth_error_map.
  destruct (nth_error x _); cbn [option_map]; [|reflexivity]. destruct (nth_error eigs 0); cbn [option_map]; [|reflexivity].
  destruct (nth_error x 0); cbn [option_map]; [|reflexivity]. destruct (nth_error eigs _); cbn [option_map]; [|reflexivity].
  rewrite Hle, Hlt, skip_map. destruct (nle _ _); [reflexivity|]. destruct (nlt _ _); [reflexivity|].
  destruct (step_skip _ _ _ _); try reflexivity. now rewrite main_map.
Qed.
End Shift.
Lemma step_shift (eigs x : list R) t : step_function_fast (map (fun v => v + t) eigs) (map (fun v => v + t) x) = step_function_fast eigs x.
Proof.
  apply step_map; intros a b; cbn.
  - destruct (Rlt_dec a b), (Rlt_dec (a+t) (b+t)); auto; lra.
  - destruct (Rle_dec a b), (Rle_dec (a+t) (b+t)); auto; lra.
Qed.
Lemma d3_shift simpson n L (u : list R) c t : (2 <= n)%nat ->
  d3_sample simpson n L (map (fun v => v + t) u) (c + t) = d3_sample simpson n L u c.
Proof.
  intros Hn. unfold d3_sample. cbn [nsub nadd ndiv nofZ Num_R].
  replace (c + t - L / 2) with (c - L / 2 + t) by ring. replace (c + t + L / 2) with (c + L / 2 + t) by ring.
  rewrite linspace_shift, step_shift by exact Hn. set (g := linspace _ _ _). assert (g <> []).
  { intros E. pose proof (linspace_length (c - L/2) (c + L/2) n) as E'. fold g in E'. rewrite E in E'. cbn in E'. lia. }
  destruct (step_function_fast u g); try reflexivity. cbv zeta. rewrite slope_shift, intercept_shift, deviation_shift by assumption.
  now rewrite simps_shift, trap_shift.
Qed.

(** ** Independent forms *)
Lemma trap_cons x a (g v : list R) n : trap (x :: g) (a :: v) (S n) = (nth 0 g 0 - x) * (a + nth 0 v 0) / 2 + trap g v n.
Proof.
  induction n as [|n IH]; [unfold trap; cbn; lra|]. rewrite trap_S, IH, trap_S. cbn [nth]. lra.
Qed.
Lemma trap_TrapSum (g : list R) : forall v, length v = length g -> integrate_fast g v = TrapSum g v.
Proof.
  induction g as [|x [|y g] IH]; intros v H.
  - reflexivity.
  - destruct v as [|a [|b v]]; try discriminate. reflexivity.
  - destruct v as [|a [|b v]]; try discriminate. specialize (IH (b :: v) ltac:(cbn in *; lia)).
    rewrite integrate_fast_trap in *. cbn [length] in *. replace (S (S (length g)) - 1)%nat with (S (length g)) by lia.
    rewrite trap_cons. replace (S (length g) - 1)%nat with (length g) in IH by lia. rewrite IH. reflexivity.
Qed.
Lemma linspace_even (a b : R) n : (2 <= n)%nat -> linspace a b n = EvenGrid a b n.
Proof.
  intros H. apply (nth_ext _ _ 0 0). { unfold EvenGrid. now rewrite linspace_length, map_length, seq_length. }
  rewrite linspace_length. intros i Hi. rewrite linspace_nth by lia. unfold EvenGrid.
  rewrite (nth_map_in _ _ _ 0 0%nat) by now rewrite seq_length. now rewrite seq_nth.
Qed.
Lemma deviation_residuals (st g : list R) k w : sq_lin_deviation st k w g = SqResiduals g st k w.
Proof.
  unfold sq_lin_deviation, SqResiduals, Residuals. rewrite map_map. revert g. induction st as [|a st IH]; intros [|b g]; try reflexivity.
  cbn [combine map]. rewrite IH. f_equal. cbn [fst snd nsub nmul Num_R]. ring.
Qed.
Lemma d3_inv simpson n L (u : list R) c d : d3_sample simpson n L u c = Done d -> (2 <= n)%nat ->
  let g := EvenGrid (c - L / 2) (c + L / 2) n in
  exists counts, step_function_fast u g = Done counts /\
    let st := map IZR counts in let v := SqResiduals g st (slope g st) (intercept g st (slope g st)) in
    d = (if simpson then int_simps_nonunif g v else integrate_fast g v) / L.
Proof.
  intros H Hn g. unfold d3_sample in H. cbn [nsub nadd ndiv nofZ Num_R] in H. rewrite linspace_even in H by exact Hn. fold g in H.
  destruct (step_function_fast u g) as [counts| |]; try discriminate. exists counts. split; [reflexivity|]. cbv zeta in *.
  rewrite deviation_residuals in H. injection H as <-. reflexivity.
Qed.
Lemma even_uniform a b n : (2 <= n)%nat -> Uniform ((b - a) / (INR n - 1)) (EvenGrid a b n).
Proof. intros H. rewrite <- linspace_even by exact H. now apply linspace_uniform. Qed.
Lemma even_length a b n : length (EvenGrid a b n) = n.
Proof. unfold EvenGrid. now rewrite map_length, seq_length. Qed.
Lemma uniform_increasing s g : 0 < s -> Uniform s g -> Increasing g.
Proof. intros Hs H i x y Hx Hy. specialize (H i x y Hx Hy). lra. Qed.
Lemma step_pos c L n : 0 < L -> (2 <= n)%nat -> 0 < (c + L / 2 - (c - L / 2)) / (INR n - 1).
Proof. intros HL Hn. apply le_INR in Hn. cbn in Hn. apply Rdiv_lt_0_compat; lra. Qed.
Lemma sqres_nonneg x y a b : Forall (fun t => 0 <= t) (SqResiduals x y a b).
Proof. unfold SqResiduals. apply Forall_map, Forall_forall. intros r _. apply Rle_0_sqr. Qed.
Lemma sqres_length x y a b : length y = length x -> length (SqResiduals x y a b) = length x.
Proof. intros H. unfold SqResiduals, Residuals. rewrite !map_length, combine_length. lia. Qed.
Lemma step_length (u g : list R) counts : u <> [] -> g <> [] -> step_function_fast u g = Done counts -> length counts = length g.
Proof.
  intros Hu Hg H. destruct (step_terminates u g (notnan_R u) (notnan_R g) Hu Hg) as (r & Hr & Hl & _). congruence.
Qed.
Lemma step_nonempty (u g : list R) counts : step_function_fast u g = Done counts -> u <> [] /\ g <> [].
Proof.
  unfold step_function_fast, step_fast, last_opt, head_opt. intros H. split; intros ->; cbn in H; [|discriminate].
  destruct (nth_error g _); discriminate.
Qed.
Lemma d3_nonneg simpson n L u c d : 0 < L -> (3 <= n)%nat -> d3_sample simpson n L u c = Done d -> 0 <= d.
Proof.
  intros HL Hn H. apply d3_inv in H; [|lia]. destruct H as (counts & _ & ->). set (g := EvenGrid _ _ _). cbv zeta.
  pose proof (step_pos c L n HL ltac:(lia)) as Hs. pose proof (even_uniform (c - L/2) (c + L/2) n ltac:(lia)) as U. fold g in U.
  apply Rmult_le_pos; [|left; now apply Rinv_0_lt_compat]. destruct simpson.
  - apply (simpson_nonneg _ _ _ Hs U); [unfold g; rewrite even_length; lia|apply sqres_nonneg].
  - apply trap_nonneg; [exact (uniform_increasing _ _ Hs U)|apply sqres_nonneg].
Qed.
Lemma d3_line n L u c d : 0 < L -> (2 <= n)%nat -> d3_sample false n L u c = Done d ->
  let g := EvenGrid (c - L / 2) (c + L / 2) n in
  exists counts, step_function_fast u g = Done counts /\
    forall a b, d <= 2 * (TrapSum g (SqResiduals g (map IZR counts) a b) / L).
Proof.
  intros HL Hn H. apply d3_inv in H; [|lia]. destruct H as (counts & Hc & ->). set (g := EvenGrid _ _ _) in *. cbv zeta. exists counts. split; [exact Hc|].
  intros a b. destruct (step_nonempty _ _ _ Hc) as (Hu & Hg). pose proof (step_length _ _ _ Hu Hg Hc) as Hl.
  pose proof (step_pos c L n HL ltac:(lia)) as Hs. pose proof (even_uniform (c - L/2) (c + L/2) n ltac:(lia)) as U. fold g in U.
  set (st := map IZR counts). assert (Hst : length st = length g) by (unfold st; now rewrite map_length).
  assert (Hlg : (2 <= length g)%nat) by (unfold g; rewrite even_length; lia).
  rewrite <- trap_TrapSum by now apply sqres_length.
  destruct (trap_sum_bounds _ g (SqResiduals g st a b) Hs U (sqres_length _ _ _ _ Hst) Hlg (sqres_nonneg _ _ _ _)) as (_ & B2).
  destruct (trap_sum_bounds _ g (SqResiduals g st (slope g st) (intercept g st (slope g st))) Hs U (sqres_length _ _ _ _ Hst) Hlg (sqres_nonneg _ _ _ _)) as (B1 & _).
  pose proof (ols_minimal g st Hg (eq_sym Hst) a b) as O.
  change (Rsum (SqResiduals g st (slope g st) (intercept g st (slope g st))) <= Rsum (SqResiduals g st a b)) in O.
  replace (2 * (integrate_fast g (SqResiduals g st a b) / L)) with (2 * integrate_fast g (SqResiduals g st a b) / L) by (unfold Rdiv; ring).
  apply Rmult_le_compat_r; [left; now apply Rinv_0_lt_compat|]. eapply Rle_trans; [exact B1|]. eapply Rle_trans; [|exact B2].
  apply Rmult_le_compat_l; [lra|exact O].
Qed.
Lemma d3_defined simpson n L (u : list R) c : u <> [] -> (1 <= n)%nat -> exists d, d3_sample simpson n L u c = Done d.
Proof.
  intros Hu Hn. unfold d3_sample. set (g := linspace _ _ _). assert (g <> []).
  { intros E. pose proof (linspace_length (c - L/2) (c + L/2) n) as E'. change (length g = n) in E'. rewrite E in E'. cbn in E'. lia. }
  destruct (step_terminates u g (notnan_R u) (notnan_R g) Hu H) as (r & -> & _). eexists. reflexivity.
Qed.
