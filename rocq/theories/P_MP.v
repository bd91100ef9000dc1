(** The limits of the noise averages are the moments of the Marchenko-Pastur law. *)
From Coq Require Import List ZArith Bool Arith Lia Reals Lra.
From Coquelicot Require Import Coquelicot.
From Verif Require Import Base S_Generate S_Normal S_Rotate S_CCharPoly S_Moments S_Law S_MP P_Generate P_Surmise P_Rotate P_Moments P_Wishart P_Semi P_Approx P_Law P_LawUnfold P_MPLoop.
Import ListNotations.
Local Open Scope R_scope.
Local Notation length := List.length.

(** ** The semicircle and differences of polynomials *)
Fixpoint pm (j : nat) (cs : list R) : R := match cs with [] => 0 | c :: t => c * semicircle_moment j + pm (S j) t end.
Lemma pm_sum cs : forall j, pm j cs = SumTo (length cs) (fun k => nth k cs 0 * semicircle_moment (j + k)).
Proof.
  induction cs as [|c cs IH]; intro j; [reflexivity|]. cbn [pm length]. rewrite SumTo_shift. cbn [nth]. rewrite Nat.add_0_r. f_equal. rewrite IH. apply SumTo_ext. intros k _. do 2 f_equal. lia.
Qed.
Lemma pm_pmean cs : pm 0 cs = pmean cs.
Proof. apply pm_sum. Qed.
Fixpoint ladd (a b : list R) : list R := match a, b with [], _ => b | _, [] => a | x :: a', y :: b' => (x + y) :: ladd a' b' end.
Definition lscale (c : R) (a : list R) : list R := map (Rmult c) a.
Lemma pm_add a : forall b j, pm j (ladd a b) = pm j a + pm j b.
Proof. induction a as [|x a IH]; intros [|y b] j; cbn [ladd pm]; try ring. rewrite IH. ring. Qed.
Lemma pm_scale c a : forall j, pm j (lscale c a) = c * pm j a.
Proof. induction a as [|x a IH]; intro j; cbn [lscale map pm]; [ring|]. fold (lscale c a). rewrite IH. ring. Qed.
Lemma pm_shift a j : pm j (0 :: a) = pm (S j) a.
Proof. cbn [pm]. ring. Qed.
Lemma peval_add a : forall b x, peval (ladd a b) x = peval a x + peval b x.
Proof. unfold peval. induction a as [|y a IH]; intros [|z b] x; cbn [ladd fold_right]; try ring. rewrite IH. ring. Qed.
Lemma peval_lscale c a x : peval (lscale c a) x = c * peval a x.
Proof. unfold peval, lscale. induction a as [|y a IH]; cbn [map fold_right]; [ring|]. rewrite IH. ring. Qed.
(** The mean of w(x) (g(x) - g(y))/(x - y) over two independent points of the law. *)
Fixpoint twin (w g : list R) : R := match g with [] => 0 | _ :: t => pm 0 w * pm 0 t + twin (0 :: w) t end.
Lemma twin_addr g : forall w h, twin w (ladd g h) = twin w g + twin w h.
Proof. induction g as [|x g IH]; intros w [|y h]; cbn [ladd twin]; try ring. rewrite pm_add, IH. ring. Qed.
Lemma twin_scaler c g : forall w, twin w (lscale c g) = c * twin w g.
Proof. induction g as [|x g IH]; intro w; cbn [lscale map twin]; [ring|]. fold (lscale c g). rewrite pm_scale, IH. ring. Qed.
Lemma twin_addl g : forall w v, twin (ladd w v) g = twin w g + twin v g.
Proof.
  induction g as [|x g IH]; intros w v; cbn [twin]; [ring|]. rewrite pm_add. specialize (IH (0 :: w) (0 :: v)). cbn [ladd] in IH. rewrite Rplus_0_r in IH. rewrite IH. ring.
Qed.
Lemma twin_scalel c g : forall w, twin (lscale c w) g = c * twin w g.
Proof.
  induction g as [|x g IH]; intro w; cbn [twin]; [ring|]. rewrite pm_scale. specialize (IH (0 :: w)). cbn [lscale map] in IH. rewrite Rmult_0_r in IH. fold (lscale c w) in IH. rewrite IH. ring.
Qed.
Definition mono (j : nat) : list R := repeat 0 j ++ [1].
Lemma pm_mono j : forall i, pm i (mono j) = semicircle_moment (i + j).
Proof. induction j as [|j IH]; intro i; [cbn; rewrite Nat.add_0_r; ring|]. change (mono (S j)) with (0 :: mono j). rewrite pm_shift, IH. f_equal. lia. Qed.
Lemma twin_mono g : forall j, twin (mono j) g + SumTo j (fun r => semicircle_moment r * pm (j - 1 - r) g) = pm (S j) g.
Proof.
  induction g as [|c g IH]; intro j.
  - cbn [twin pm]. rewrite (SumTo_ext j _ (fun _ => 0)) by (intros; ring). rewrite SumTo_const. ring.
  - cbn [twin pm]. rewrite pm_mono. change (0 :: mono j) with (mono (S j)). specialize (IH (S j)). cbn [SumTo] in IH. replace (S j - 1 - j)%nat with O in IH by lia. rewrite <- IH.
    rewrite <- semi_conv. rewrite (SumTo_ext j (fun r => semicircle_moment r * (c * semicircle_moment (j - 1 - r) + pm (S (j - 1 - r)) g)) (fun r => c * (semicircle_moment r * semicircle_moment (j - 1 - r)) + semicircle_moment r * pm (S j - 1 - r) g)).
    + rewrite SumTo_add, SumTo_scale. cbn [Nat.add]. ring.
    + intros r Hr. replace (S j - 1 - r)%nat with (S (j - 1 - r)) by lia. ring.
Qed.
Lemma twin_one g : twin [1] g = pm 1 g.
Proof. pose proof (twin_mono g 0) as H. cbn [SumTo] in H. change (mono 0) with [1] in H. lra. Qed.

Section Ratio.
Variables a q : R.
Definition ymul (g : list R) : list R := ladd (lscale a g) (0 :: lscale q g).
Lemma peval_ymul g x : peval (ymul g) x = (a + q * x) * peval g x.
Proof. unfold ymul. rewrite peval_add, peval_lscale. change (peval (0 :: lscale q g) x) with (0 + x * peval (lscale q g) x). rewrite peval_lscale. ring. Qed.
Lemma twin_ymul w g : twin w (ymul g) = q * pm 0 w * pm 0 g + twin (ymul w) g.
Proof.
  unfold ymul. rewrite twin_addr, twin_scaler, twin_addl, twin_scalel. cbn [twin]. rewrite pm_scale, twin_scaler.
  replace (0 :: lscale q w) with (lscale q (0 :: w)) by (unfold lscale; cbn [map]; f_equal; ring). rewrite twin_scalel. ring.
Qed.
Definition ypow (k : nat) (w : list R) : list R := Nat.iter k ymul w.
Lemma ypow_S k w : ypow (S k) w = ymul (ypow k w).
Proof. reflexivity. Qed.
Lemma ypow_S' k w : ypow (S k) w = ypow k (ymul w).
Proof. induction k as [|k IH]; [reflexivity|]. rewrite ypow_S, IH. reflexivity. Qed.
Lemma peval_ypow k w x : peval (ypow k w) x = (a + q * x) ^ k * peval w x.
Proof. induction k as [|k IH]; [change (ypow 0 w) with w; cbn [pow]; ring|]. rewrite ypow_S, peval_ymul, IH. cbn [pow]. ring. Qed.
Lemma twin_ypow k : forall w, twin w (ypow k [1]) = q * SumTo k (fun r => pm 0 (ypow r w) * pm 0 (ypow (k - 1 - r) [1])).
Proof.
  induction k as [|k IH]; intro w; [unfold ypow; cbn; ring|]. rewrite ypow_S, twin_ymul, IH, SumTo_shift. replace (S k - 1 - 0)%nat with k by lia. change (ypow 0 w) with w.
  rewrite (SumTo_ext k (fun i => pm 0 (ypow (S i) w) * pm 0 (ypow (S k - 1 - S i) [1])) (fun r => pm 0 (ypow r (ymul w)) * pm 0 (ypow (k - 1 - r) [1]))); [ring|].
  intros r Hr. rewrite ypow_S'. do 3 f_equal. lia.
Qed.
(** The moments of a + q s. *)
Definition ymom (k : nat) : R := pm 0 (ypow k [1]).
Lemma ymom_0 : ymom 0 = 1.
Proof. unfold ymom, ypow. cbn [Nat.iter pm nat_rect]. cbn [pm]. rewrite semi_0. ring. Qed.
Lemma ymom_S k : ymom (S k) = a * ymom k + q * q * SumTo k (fun r => ymom r * ymom (k - 1 - r)).
Proof.
  unfold ymom at 1. rewrite ypow_S. unfold ymul. rewrite pm_add, pm_scale, pm_shift, pm_scale, <- twin_one, twin_ypow. unfold ymom. ring.
Qed.
Lemma ymom_int k : is_RInt (fun s => (a + q * s) ^ k * semicircle s) (-2) 2 (ymom k).
Proof.
  unfold ymom. rewrite pm_pmean. refine (is_RInt_ext _ _ _ _ _ _ (pmean_int (ypow k [1]))). intros x _. rewrite peval_ypow. match goal with |- ?a = ?b => change (@eq R a b) end. cbn [peval fold_right]. ring.
Qed.
End Ratio.

(** ** The moments of the law of aspect ratio c *)
Section MP.
Variable c : R.
Hypothesis c_pos : 0 < c.
Definition mp_moment (k : nat) : R := match k with O => 1 | S k => ymom (1 + c) (sqrt c) k end.
Lemma mp_moment_S k : mp_moment (S k) = mp_moment k + c * SumTo k (fun r => mp_moment (S r) * mp_moment (k - 1 - r)).
Proof.
  destruct k as [|k]; [cbn [mp_moment SumTo]; rewrite ymom_0; ring|].
  assert (SumTo (S k) (fun r => mp_moment (S r) * mp_moment (S k - 1 - r)) = SumTo k (fun r => ymom (1 + c) (sqrt c) r * ymom (1 + c) (sqrt c) (k - 1 - r)) + ymom (1 + c) (sqrt c) k) as E.
  { cbn [SumTo]. f_equal.
    - apply SumTo_ext. intros r Hr. replace (S k - 1 - r)%nat with (S (k - 1 - r)) by lia. reflexivity.
    - replace (S k - 1 - k)%nat with O by lia. cbn [mp_moment]. ring. }
  rewrite E. cbn [mp_moment]. rewrite ymom_S, sqrt_sqrt by lra. ring.
Qed.
Definition mps (ks : list nat) : R := fold_right Rmult 1 (map mp_moment ks).
Variables N d : nat -> R.
Hypothesis N_pos : forall j, 0 < N j.
Hypothesis d_pos : forall j, 0 < d j.
Hypothesis N_lim : is_lim_seq (fun j => / N j) 0.
Hypothesis d_lim : is_lim_seq (fun j => / d j) 0.
Hypothesis ratio : is_lim_seq (fun j => N j / d j) c.
Lemma noise_limit f : forall ks, (burden ks < f)%nat -> is_lim_seq (fun j => noise_average f (N j) (d j) ks / (d j ^ degree ks * N j ^ length ks)) (mps ks).
Proof.
  induction f as [|f IH]; intros ks Hw; [lia|]. cbn [noise_average]. destruct ks as [|[|k] ks].
  - apply (is_lim_seq_ext (fun _ => 1)); [intro j; cbn; field|apply is_lim_seq_const].
  - apply (is_lim_seq_ext (fun j => noise_average f (N j) (d j) ks / (d j ^ degree ks * N j ^ length ks))).
    + intro j. change (degree (0%nat :: ks)) with (degree ks). cbn [length pow]. pose proof (N_pos j). pose proof (pow_lt _ (degree ks) (d_pos j)). pose proof (pow_lt _ (length ks) (N_pos j)). field. repeat split; lra.
    + unfold mps. cbn [map fold_right mp_moment]. rewrite Rmult_1_l. apply IH. unfold burden in *. cbn [fold_right length] in Hw. lia.
  - pose (T1 := fun j => (1 + INR k * / d j) * (noise_average f (N j) (d j) (k :: ks) / (d j ^ degree (k :: ks) * N j ^ length (k :: ks)))).
    pose (T2 := fun j => N j / d j * SumTo k (fun r => noise_average f (N j) (d j) (S r :: (k - 1 - r)%nat :: ks) / (d j ^ degree (S r :: (k - 1 - r)%nat :: ks) * N j ^ length (S r :: (k - 1 - r)%nat :: ks)))).
    pose (T3 := fun j => 2 * total (map (fun p => INR (fst p) * (noise_average f (N j) (d j) ((k + fst p)%nat :: snd p) / (d j ^ degree ((k + fst p)%nat :: snd p) * N j ^ length ((k + fst p)%nat :: snd p)) * (/ N j * / d j))) (picks ks))).
    apply (is_lim_seq_ext (fun j => T1 j + T2 j + T3 j)).
    + intro j. pose proof (N_pos j). pose proof (d_pos j). assert (forall e, d j ^ e <> 0) as Hd by (intro e; pose proof (pow_lt _ e (d_pos j)); lra). assert (forall e, N j ^ e <> 0) as HN by (intro e; pose proof (pow_lt _ e (N_pos j)); lra).
      assert (N j <> 0) by lra. assert (d j <> 0) by lra.
      assert (forall x y z w, (x + y + z) / w = x / w + y / w + z / w) as Q3 by (intros; unfold Rdiv; ring). assert (forall x y w, x * y / w = x * (y / w)) as Q1 by (intros; unfold Rdiv; ring).
      rewrite Q3. f_equal; [f_equal|].
      * unfold T1. change (degree (S k :: ks)) with (S (degree (k :: ks))). cbn [length pow]. field. auto.
      * unfold T2. unfold Rdiv at 3. rewrite (Rmult_comm (SumTo k (fun r => noise_average f (N j) (d j) (S r :: (k - 1 - r)%nat :: ks))) (/ _)), <- !SumTo_scale. apply SumTo_ext. intros r Hr.
        replace (degree (S k :: ks)) with (S (degree (S r :: (k - 1 - r)%nat :: ks))) by (unfold degree; cbn [fold_right]; lia). cbn [length pow]. field. auto.
      * unfold T3. rewrite (Q1 2). f_equal. unfold total. assert (forall p, In p (picks ks) -> (fst p + degree (snd p))%nat = degree ks /\ S (length (snd p)) = length ks) as I by (apply picks_degree). revert I. generalize (picks ks). intro ps. induction ps as [|[m r] ps IHp]; intro I; cbn [map fold_right fst snd]; [unfold Rdiv; ring|].
        assert (forall x y w, (x + y) / w = x / w + y / w) as Q2 by (intros; unfold Rdiv; ring). rewrite Q2, <- IHp by (intros; apply I; now right). f_equal.
        destruct (I (m, r)) as [D L]; [now left|]. cbn [fst snd] in D, L. cbn [length]. rewrite <- L.
        replace (degree (S k :: ks)) with (S (degree ((k + m)%nat :: r))); [cbn [pow]; field; auto|].
        change (degree (S k :: ks)) with (S k + degree ks)%nat. rewrite <- D. change (degree ((k + m)%nat :: r)) with (k + m + degree r)%nat. lia.
    + replace (mps (S k :: ks)) with ((1 + INR k * 0) * mps (k :: ks) + c * SumTo k (fun r => mps (S r :: (k - 1 - r)%nat :: ks)) + 2 * 0).
      2:{ unfold mps. cbn [map fold_right]. rewrite mp_moment_S. fold (mps ks). rewrite (SumTo_ext k (fun r => mp_moment (S r) * (mp_moment (k - 1 - r) * mps ks)) (fun r => mps ks * (mp_moment (S r) * mp_moment (k - 1 - r)))) by (intros; ring). rewrite SumTo_scale. ring. }
      apply (is_lim_seq_plus' (fun n => T1 n + T2 n)); [apply (is_lim_seq_plus' T1)|].
      * apply is_lim_seq_mult'; [|apply IH; unfold burden in *; cbn [fold_right length] in *; lia]. apply is_lim_seq_plus'; [apply is_lim_seq_const|]. apply (is_lim_seq_scal_l _ (INR k) 0). exact d_lim.
      * apply is_lim_seq_mult'; [exact ratio|]. apply lim_SumTo. intros r Hr. apply IH. unfold burden in *. cbn [fold_right length] in *. lia.
      * apply (is_lim_seq_scal_l _ 2 0). apply lim_total. intros [m r] Hp. cbn [fst snd]. replace (Finite 0) with (Finite (INR m * (mps ((k + m)%nat :: r) * (0 * 0)))) by (f_equal; ring).
        apply (is_lim_seq_scal_l _ (INR m) (mps ((k + m)%nat :: r) * (0 * 0))). apply is_lim_seq_mult'; [|apply is_lim_seq_mult'; assumption]. apply IH.
        pose proof (picks_burden ks _ Hp) as W. unfold burden in *. cbn [fold_right length fst snd] in *. lia.
Qed.
End MP.

(** ** The density *)
Lemma half_angle c q s k : 0 < q < 1 -> q * q = c -> s * s + k * k = 1 -> 0 < k -> 0 < 1 + c + 2 * q * (2 * s * k) ->
  / (4 * c) * ((1 + c) * 1 + 2 * q * (1 * - (2 * s * k)) + - (2 * (1 - c) * ((((1 + c) * (1 * / 2 * k) + 2 * q * (1 * / 2 * - s)) * / ((1 - c) * k)
     + ((1 + c) * s + 2 * q * k) * (- ((1 - c) * (1 * / 2 * - s)) * / ((1 - c) * k * ((1 - c) * k)))) *
     / (1 + ((1 + c) * s + 2 * q * k) * / ((1 - c) * k) * (((1 + c) * s + 2 * q * k) * / ((1 - c) * k) * 1)))))
  = (k * k - s * s) * (k * k - s * s) / (1 + c + 2 * q * (2 * s * k)).
Proof.
  intros Hq E K Hk Hy. assert (0 < c < 1) as Hc by nra. set (Y := 1 + c + 2 * q * (2 * s * k)) in *.
  replace (((1 + c) * (1 * / 2 * k) + 2 * q * (1 * / 2 * - s)) * / ((1 - c) * k) + ((1 + c) * s + 2 * q * k) * (- ((1 - c) * (1 * / 2 * - s)) * / ((1 - c) * k * ((1 - c) * k)))) with ((1 + c) * (s * s + k * k) / (2 * (1 - c) * (k * k))) by (field; split; lra).
  replace (1 + ((1 + c) * s + 2 * q * k) * / ((1 - c) * k) * (((1 + c) * s + 2 * q * k) * / ((1 - c) * k) * 1)) with ((1 + c) * Y / ((1 - c) * (1 - c) * (k * k))).
  2:{ transitivity (((1 - c) * (1 - c) * (k * k) + ((1 + c) * s + 2 * q * k) * ((1 + c) * s + 2 * q * k)) / ((1 - c) * (1 - c) * (k * k))); [|field; split; lra]. f_equal.
      unfold Y. replace ((1 + c) * (1 + c + 2 * q * (2 * s * k))) with ((1 + c) * ((1 + c) * (s * s + k * k) + 2 * q * (2 * s * k))) by (rewrite K; ring). rewrite <- E. ring. }
  rewrite K. transitivity (/ (4 * c) * ((1 + c - 4 * q * s * k) - (1 - c) * (1 - c) / Y)); [field; repeat split; lra|].
  apply (Rmult_eq_reg_l (4 * c * Y)); [|apply Rgt_not_eq; nra]. transitivity ((1 + c - 4 * q * s * k) * Y - (1 - c) * (1 - c)); [field; split; lra|].
  transitivity (4 * c * ((k * k - s * s) * (k * k - s * s))); [|field; lra]. replace ((k * k - s * s) * (k * k - s * s)) with ((s * s + k * k) * (s * s + k * k) - 4 * (s * s * (k * k))) by ring. rewrite K. unfold Y. rewrite <- E. ring.
Qed.
Section Density.
Variable c : R.
Hypothesis c_range : 0 < c < 1.
Let q := sqrt c.
Let a := 1 + c.
Lemma q_range : 0 < q < 1 /\ q * q = c.
Proof.
  unfold q. split; [|apply sqrt_sqrt; lra]. split; [apply sqrt_lt_R0; lra|]. rewrite <- sqrt_1. apply sqrt_lt_1; lra.
Qed.
Lemma below s : -2 <= s <= 2 -> (1 - q) * (1 - q) <= a + q * s.
Proof. destruct q_range as [H E]. intro Hs. unfold a. rewrite <- E. nra. Qed.
Lemma gap_pos : 0 < (1 - q) * (1 - q).
Proof. destruct q_range as [H E]. apply Rmult_lt_0_compat; lra. Qed.
Definition dens (s : R) : R := semicircle s / (a + q * s).
Lemma dens_total : is_RInt dens (-2) 2 1.
Proof.
  destruct q_range as [Hq Eq]. pose proof PI_RGT_0 as HPI.
  pose (y := fun t => a + 2 * q * sin t).
  assert (forall t, 0 < y t) as Hy by (intro t; unfold y; pose proof (SIN_bound t); pose proof (below (2 * sin t) ltac:(lra)); pose proof gap_pos; lra).
  assert (forall s, -2 <= s <= 2 -> continuous dens s) as HC.
  { intros s Hs. unfold dens. apply (continuous_mult (K := R_AbsRing) semicircle (fun s => / (a + q * s))); [apply semicircle_continuous|].
    apply (ex_derive_continuous (V := R_NormedModule)). pose proof (below s Hs). pose proof gap_pos. auto_derive. lra. }
  assert (is_RInt (fun t => scal (2 * cos t) (dens (2 * sin t))) (- (PI / 2)) (PI / 2) (RInt dens (2 * sin (- (PI / 2))) (2 * sin (PI / 2)))) as HS.
  { apply (is_RInt_comp (V := R_CompleteNormedModule) dens (fun t => 2 * sin t) (fun t => 2 * cos t)).
    - intros t _. apply HC. pose proof (SIN_bound t). lra.
    - intros t _. split; [auto_derive; [exact I|ring]|]. apply (continuous_mult (K := R_AbsRing) (fun _ => 2) cos); [apply continuous_const|apply continuous_cos]. }
  rewrite sin_neg, sin_PI2 in HS. replace (2 * - (1)) with (-2) in HS by ring. rewrite Rmult_1_r in HS.
  assert (is_RInt (fun t => scal (2 * cos t) (dens (2 * sin t))) (- (PI / 2)) (PI / 2) 1) as HV.
  { pose (w := fun t => (a * sin (t / 2) + 2 * q * cos (t / 2)) / ((1 - c) * cos (t / 2))).
    pose (F := fun t => 2 / PI * (/ (4 * c) * (a * t + 2 * q * cos t - 2 * (1 - c) * atan (w t)))).
    apply (is_RInt_ext (fun t => 2 / PI * (cos t * cos t / y t))).
    - intros t Ht. rewrite Rmin_left, Rmax_right in Ht by lra. unfold scal. cbn. unfold mult. cbn. unfold dens, semicircle.
      assert (0 <= cos t) as Hc by (apply cos_ge_0; lra). replace (4 - 2 * sin t * (2 * sin t)) with (2 * cos t * (2 * cos t)).
      + rewrite sqrt_square by lra. specialize (Hy t). unfold y in *. match goal with |- ?a = ?b => change (@eq R a b) end. field. split; [lra|]. replace (a + q * (2 * sin t)) with (a + 2 * q * sin t) by ring. lra.
      + pose proof (sin2_cos2 t) as K. unfold Rsqr in K. lra.
    - replace 1 with (F (PI / 2) - F (- (PI / 2))).
      2:{ unfold F, w. replace (- (PI / 2) / 2) with (- (PI / 2 / 2)) by field. rewrite !sin_neg, !cos_neg. rewrite cos_PI2. replace (PI / 2 / 2) with (PI / 4) by field. rewrite <- sin_cos_PI4.
          assert (0 < sin (PI / 4)) as Hs by (apply sin_gt_0; lra). set (s := sin (PI / 4)) in *.
          replace ((a * s + 2 * q * s) / ((1 - c) * s)) with ((1 + q) / (1 - q)) by (unfold a; rewrite <- Eq; field; repeat split; nra).
          replace ((a * - s + 2 * q * s) / ((1 - c) * s)) with (- / ((1 + q) / (1 - q))) by (unfold a; rewrite <- Eq; field; repeat split; nra).
          assert (0 < (1 + q) / (1 - q)) as Hu by (apply Rdiv_lt_0_compat; lra). rewrite atan_opp, (atan_inv _ Hu). unfold a. field. split; lra. }
      apply (is_RInt_derive (V := R_CompleteNormedModule) F).
      + intros t Ht. rewrite Rmin_left, Rmax_right in Ht by lra. assert (0 < cos (t / 2)) as Hc by (apply cos_gt_0; lra). specialize (Hy t). unfold F, w.
        auto_derive; [apply Rgt_not_eq; nra|]. pose proof (sin2_cos2 (t / 2)) as K. unfold Rsqr in K. unfold y in *.
        assert (sin t = 2 * sin (t / 2) * cos (t / 2)) as Es by (rewrite <- sin_2a; f_equal; field). assert (cos t = cos (t / 2) * cos (t / 2) - sin (t / 2) * sin (t / 2)) as Ec by (rewrite <- cos_2a; f_equal; field).
        rewrite Es in Hy. rewrite Es, Ec. change (t * / 2) with (t / 2). set (k := cos (t / 2)) in *. set (s := sin (t / 2)) in *. clearbody k s. clear Es Ec.
        f_equal. exact (half_angle c q s k Hq Eq K Hc Hy).
      + intros t _. apply (ex_derive_continuous (V := R_NormedModule)). specialize (Hy t). unfold y in *. auto_derive. lra. }
  pose proof (is_RInt_unique (V := R_CompleteNormedModule) _ _ _ _ HS) as E1. rewrite (is_RInt_unique (V := R_CompleteNormedModule) _ _ _ _ HV) in E1. rewrite E1.
  apply (RInt_correct (V := R_CompleteNormedModule)), (ex_RInt_continuous (V := R_CompleteNormedModule)). intros x Hx. rewrite Rmin_left, Rmax_right in Hx by lra. apply HC. lra.
Qed.
End Density.
