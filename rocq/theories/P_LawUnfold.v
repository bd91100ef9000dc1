(** What [unfold_goe] does to spectra that follow the semicircle law of radius 2 sqrt n. *)
From Coq Require Import List ZArith Bool Arith Lia Reals Lra Sorting.Permutation.
From Coquelicot Require Import Coquelicot.
From Verif Require Import Base M_Analytic S_Generate S_Normal S_Rotate S_Moments S_Analytic S_Law P_Generate P_Analytic P_Draw P_Surmise P_Rotate T_Rotate P_Moments P_Wishart P_Approx P_Semi P_SemiBand P_Law.
Import ListNotations.
Local Open Scope R_scope.
Local Notation length := List.length.

(** ** The counting function of the law *)
Lemma edge2 : sqrt (2 * INR 2) = 2.
Proof. cbn [INR]. replace (2 * (1 + 1)) with (2 * 2) by ring. apply sqrt_square. lra. Qed.
Lemma mass_goe x : Fgoe 2 x = 2 * mass x.
Proof.
  unfold Fgoe, mass. rewrite edge2. replace (- (2)) with (-2) by ring. rewrite (RInt_ext (goe_R1 2) (fun x => scal 2 (semicircle x))) by (intros y _; rewrite semicircle_R1; reflexivity).
  rewrite (RInt_scal (V := R_CompleteNormedModule)) by apply semicircle_ex. reflexivity.
Qed.
Lemma mass_sin t : - PI / 2 <= t <= PI / 2 -> mass (2 * sin t) = 1 / 2 + (t + sin t * cos t) / PI.
Proof. intro H. pose proof (Fgoe_sin 2 ltac:(lia) t H) as E. rewrite edge2, mass_goe in E. cbn [INR] in E. lra. Qed.
Lemma mass_bottom x : x <= -2 -> mass x = 0.
Proof. intro H. pose proof (Fgoe_below 2 ltac:(lia) x ltac:(rewrite edge2; lra)) as E. rewrite mass_goe in E. lra. Qed.
Lemma mass_2 : mass 2 = 1.
Proof. exact semicircle_total. Qed.
Lemma mass_top x : 2 <= x -> mass x = 1.
Proof.
  intro H. pose proof (mass_step 2 x) as E. rewrite RInt_zero, mass_2 in E; [lra|]. intros y Hy. rewrite Rmin_left, Rmax_right in Hy by lra. apply semicircle_out. rewrite Rabs_pos_eq; lra.
Qed.
Lemma mass_strict x y : -2 <= x -> x < y -> y <= 2 -> mass x < mass y.
Proof. intros H1 H2 H3. pose proof (Fgoe_strict 2 ltac:(lia) x y) as E. rewrite edge2, !mass_goe in E. specialize (E ltac:(lra) H2 H3). lra. Qed.
Lemma mass_le x t : -2 <= t < 2 -> (mass x <= mass t <-> x <= t).
Proof.
  intro H. split; intro G; [|apply (mass_slope x t G)]. destruct (Rle_dec x t) as [L|L]; [exact L|exfalso]. apply Rnot_le_lt in L.
  pose proof (mass_strict t (Rmin x 2) ltac:(lra) ltac:(apply Rmin_case; lra) (Rmin_r _ _)). pose proof (mass_slope (Rmin x 2) x (Rmin_l _ _)). lra.
Qed.
Lemma mass_root2 : mass (- sqrt 2) = 1 / 4 - 1 / (2 * PI) /\ mass (sqrt 2) = 3 / 4 + 1 / (2 * PI).
Proof.
  pose proof PI_RGT_0 as HP. pose proof (sqrt_lt_R0 2 ltac:(lra)) as Hs. pose proof (sqrt_sqrt 2 ltac:(lra)) as Hq.
  assert (2 * sin (PI / 4) = sqrt 2) as E by (rewrite sin_PI4; rewrite <- Hq at 1; field; lra).
  assert (sin (PI / 4) * cos (PI / 4) = 1 / 2) as E2 by (rewrite sin_PI4, cos_PI4; replace (1 / sqrt 2 * (1 / sqrt 2)) with (1 / (sqrt 2 * sqrt 2)) by (field; lra); rewrite Hq; reflexivity).
  split.
  - pose proof (mass_sin (- (PI / 4)) ltac:(lra)) as G. rewrite sin_neg, cos_neg in G. replace (2 * - sin (PI / 4)) with (- sqrt 2) in G by lra. rewrite G.
    replace (- (PI / 4) + - sin (PI / 4) * cos (PI / 4)) with (- (PI / 4) - 1 / 2) by lra. field. lra.
  - pose proof (mass_sin (PI / 4) ltac:(lra)) as G. rewrite E, E2 in G. rewrite G. field. lra.
Qed.
Lemma mass_continuous x : continuous mass x.
Proof.
  apply (continuous_ext (fun x => / 2 * Fgoe 2 x)); [intro y; rewrite mass_goe; lra|]. apply (continuous_mult (K := R_AbsRing)); [apply continuous_const|].
  apply (ex_derive_continuous (V := R_NormedModule)). eexists. apply Fgoe_derive. lia.
Qed.
Lemma mass_onto y : 0 <= y < 1 -> exists t, -2 <= t < 2 /\ mass t = y.
Proof.
  intro H. destruct (IVT_gen_consistent mass (-2) 2 y mass_continuous) as (t & Ht & E).
  - rewrite mass_2, (mass_bottom (-2)) by lra. rewrite Rmin_left, Rmax_right by lra. lra.
  - rewrite Rmin_left, Rmax_right in Ht by lra. exists t. split; [|exact E]. split; [lra|]. destruct (Req_dec t 2) as [->|]; [rewrite mass_2 in E; lra|lra].
Qed.
(** unfold_goe's counting function is n times that of the law, at x in units of half its band edge. *)
Lemma smooth_mass n x : (0 < n)%nat -> smooth_goe n x = INR n * mass (2 * x / sqrt (2 * INR n)).
Proof.
  intro Hn. pose proof (a_pos n Hn) as Ha. set (a := sqrt (2 * INR n)) in *. pose proof (smooth_count n Hn x) as S. unfold SemicircleCount in S. fold a in S. destruct S as [[H ->]|[[H ->]|(t & H & Hx & ->)]].
  - rewrite mass_bottom; [ring|]. apply (Rmult_le_reg_r a); [exact Ha|]. unfold Rdiv. rewrite Rmult_assoc, Rinv_l by lra. lra.
  - rewrite mass_top; [ring|]. apply (Rmult_le_reg_r a); [exact Ha|]. unfold Rdiv. rewrite Rmult_assoc, Rinv_l by lra. lra.
  - rewrite <- mass_sin by lra. do 2 f_equal. rewrite Hx. field. lra.
Qed.

(** ** Counting *)
Lemma total_perm {A} (f : A -> R) l l' : Permutation l l' -> total (map f l) = total (map f l').
Proof. unfold total. induction 1; cbn [map fold_right]; lra. Qed.
Lemma total_ext_in {A} (f g : A -> R) l : (forall a, f a = g a) -> total (map f l) = total (map g l).
Proof. intro H. f_equal. now apply map_ext. Qed.
Lemma count_lt_le t l : count_lt t l <= count_le t l.
Proof. apply total_le. intro x. destruct (Rlt_dec x t), (Rle_dec x t); lra. Qed.
Lemma within_ext k f g lo hi : (forall l, length l = k -> f l = g l) -> AverageWithin k f lo hi -> AverageWithin k g lo hi.
Proof. intros E (p & q & a & b & H & R). exists p, q, a, b. split; [|exact R]. intros l Hl. rewrite <- E by exact Hl. auto. Qed.
Lemma within_flip k f lo hi : AverageWithin k f lo hi -> AverageWithin k (fun l => 1 - f l) (1 - hi) (1 - lo).
Proof.
  intros (p & q & a & b & H & Ha & Hb & L1 & L2). exists (fun l => -1 * q l + 1 * 1), (fun l => -1 * p l + 1 * 1), (-1 * b + 1 * 1), (-1 * a + 1 * 1). split; [|split; [|split]].
  - intros l Hl. specialize (H l Hl). lra.
  - apply (navg_lin k q (fun _ => 1)); [exact Hb|apply navg_const].
  - apply (navg_lin k p (fun _ => 1)); [exact Ha|apply navg_const].
  - lra.
Qed.
Lemma root_edge n : sqrt (2 * INR n) = sqrt 2 * sqrt (INR n).
Proof. apply sqrt_mult; [lra|apply pos_INR]. Qed.
(** The unfolded values that are exactly zero: the levels at or below the lower edge. *)
Lemma count_zero n lam : (0 < n)%nat -> count_eq 0 (map (smooth_goe n) lam) = count_le (- sqrt 2 * sqrt (INR n)) lam.
Proof.
  intro Hn. unfold count_eq, count_le. rewrite map_map. apply total_ext_in. intro x. replace (- sqrt 2 * sqrt (INR n)) with (- sqrt (2 * INR n)) by (rewrite root_edge; ring).
  pose proof (a_pos n Hn). destruct (Req_EM_T (smooth_goe n x) 0) as [E|E]; destruct (Rle_dec x (- sqrt (2 * INR n))) as [L|L]; try reflexivity; exfalso.
  - pose proof (smooth_strict n Hn (- sqrt (2 * INR n)) (Rmin x (sqrt (2 * INR n))) ltac:(lra) ltac:(apply Rmin_case; lra) (Rmin_r _ _)) as S.
    rewrite (smooth_below n Hn (- sqrt (2 * INR n))) in S by lra. pose proof (smooth_mono n Hn _ x (Rmin_l x (sqrt (2 * INR n)))). lra.
  - apply E, smooth_below; assumption.
Qed.
(** Those that are exactly n: the levels at or above the upper edge. *)
Lemma count_top n lam : (0 < n)%nat -> count_eq (INR n) (map (smooth_goe n) lam) = INR (length lam) - count_lt (sqrt 2 * sqrt (INR n)) lam.
Proof.
  intro Hn. rewrite <- root_edge. unfold count_eq, count_lt. rewrite map_map. pose proof (a_pos n Hn). induction lam as [|x l IH]; unfold total in *; [cbn; lra|].
  cbn [length]. rewrite S_INR. cbn [map fold_right]. rewrite IH. destruct (Req_EM_T (smooth_goe n x) (INR n)) as [E|E]; destruct (Rlt_dec x (sqrt (2 * INR n))) as [L|L]; try lra; exfalso.
  - pose proof (smooth_strict n Hn (Rmax x (- sqrt (2 * INR n))) (sqrt (2 * INR n)) (Rmax_r _ _) ltac:(apply Rmax_case; lra) ltac:(lra)) as S.
    rewrite (smooth_above n Hn (sqrt (2 * INR n))) in S by lra. pose proof (smooth_mono n Hn x _ (Rmax_l x (- sqrt (2 * INR n)))). lra.
  - apply E, (smooth_above n Hn). lra.
Qed.
(** Levels divided by sqrt 2 beforehand. *)
Lemma count_scaled n lam t : (0 < n)%nat -> -2 <= t < 2 -> count_le (mass t * INR n) (map (fun x => smooth_goe n (x / sqrt 2)) lam) = count_le (t * sqrt (INR n)) lam.
Proof.
  intros Hn Ht. unfold count_le. rewrite map_map. apply total_ext_in. intro x. pose proof (nR_pos n Hn) as Hp. pose proof (sqrt_lt_R0 _ Hp) as Hs. pose proof (sqrt_lt_R0 2 ltac:(lra)) as H2. pose proof (sqrt_sqrt 2 ltac:(lra)) as Hq.
  rewrite smooth_mass by exact Hn. rewrite root_edge. replace (2 * (x / sqrt 2) / (sqrt 2 * sqrt (INR n))) with (x / sqrt (INR n)) by (rewrite <- Hq at 1; field; lra).
  pose proof (mass_le (x / sqrt (INR n)) t Ht) as M.
  destruct (Rle_dec (INR n * mass (x / sqrt (INR n))) (mass t * INR n)) as [L|L]; destruct (Rle_dec x (t * sqrt (INR n))) as [G|G]; try reflexivity; exfalso.
  - apply G. assert (x / sqrt (INR n) <= t) as Q by (apply M; apply (Rmult_le_reg_l (INR n)); lra). apply (Rmult_le_compat_r (sqrt (INR n))) in Q; [|lra]. unfold Rdiv in Q. rewrite Rmult_assoc, Rinv_l in Q by lra. lra.
  - apply L. assert (x / sqrt (INR n) <= t) as Q by (apply (Rmult_le_reg_r (sqrt (INR n))); [exact Hs|]; unfold Rdiv; rewrite Rmult_assoc, Rinv_l by lra; lra). apply M in Q. apply (Rmult_le_compat_l (INR n)) in Q; lra.
Qed.
Lemma unfolded n lam u : (0 < n)%nat -> length lam = n -> unfold_goe lam = Ok u -> Permutation (map (smooth_goe n) lam) u.
Proof. intros Hn <- H. destruct lam as [|x l]; [discriminate|]. injection H as <-. apply sort_perm. Qed.

Section Unfold.
Variable K : nat -> nat.
Variable lam : nat -> list R -> list R.
Hypothesis lam_length : forall n l, length l = K n -> length (lam n l) = n.
Variable v : list nat -> nat -> R.
Hypothesis averages : forall ks n, NormalAverage (K n) (fun l => power_sums ks (lam n l)) (v ks n).
Hypothesis limits : forall ks, is_lim_seq (fun n => v ks n / (sqrt (INR n) ^ fold_right Nat.add O ks * INR n ^ length ks)) (fold_right Rmult 1 (map semicircle_moment ks)).
Variable u : nat -> list R -> list R.
Lemma collapse_low e : (forall n l, (0 < n)%nat -> length l = K n -> unfold_goe (lam n l) = Ok (u n l)) -> 0 < e ->
  exists N, forall n, (N <= n)%nat -> AverageWithin (K n) (fun l => count_eq 0 (u n l) / INR n) (1 / 4 - 1 / (2 * PI) - e) (1 / 4 - 1 / (2 * PI) + e).
Proof.
  intros Hu He. rewrite <- (proj1 mass_root2). apply (count_mean K lam v averages limits (- sqrt 2) (fun n l => count_eq 0 (u n l))); [|exact He]. intros n l Hn Hl.
  assert (count_eq 0 (u n l) = count_le (- sqrt 2 * sqrt (INR n)) (lam n l)) as ->; [|split; [apply count_lt_le|lra]].
  rewrite <- count_zero by exact Hn. apply total_perm. apply Permutation_sym. apply unfolded; auto.
Qed.
Lemma collapse_high e : (forall n l, (0 < n)%nat -> length l = K n -> unfold_goe (lam n l) = Ok (u n l)) -> 0 < e ->
  exists N, forall n, (N <= n)%nat -> AverageWithin (K n) (fun l => count_eq (INR n) (u n l) / INR n) (1 / 4 - 1 / (2 * PI) - e) (1 / 4 - 1 / (2 * PI) + e).
Proof.
  intros Hu He. destruct (count_mean K lam v averages limits (sqrt 2) (fun n l => count_lt (sqrt 2 * sqrt (INR n)) (lam n l)) ltac:(intros n l _ _; split; [lra|apply count_lt_le]) e He) as (N & H).
  exists (S N). intros n Hn. specialize (H n ltac:(lia)). apply within_flip in H. rewrite (proj2 mass_root2) in H.
  replace (1 - (3 / 4 + 1 / (2 * PI) + e)) with (1 / 4 - 1 / (2 * PI) - e) in H by lra. replace (1 - (3 / 4 + 1 / (2 * PI) - e)) with (1 / 4 - 1 / (2 * PI) + e) in H by lra.
  refine (within_ext _ _ _ _ _ _ H). intros l Hl. cbv beta. assert (0 < INR n) by (apply lt_0_INR; lia).
  assert (count_eq (INR n) (u n l) = count_eq (INR n) (map (smooth_goe n) (lam n l))) as -> by (apply total_perm, Permutation_sym, unfolded; [lia|auto|apply Hu; [lia|exact Hl]]).
  rewrite count_top by lia. rewrite lam_length by exact Hl. field. lra.
Qed.
Lemma uniform_counts t : (forall n l, (0 < n)%nat -> length l = K n -> unfold_goe (map (fun x => x / sqrt 2) (lam n l)) = Ok (u n l)) -> -2 <= t < 2 ->
  forall n l, (0 < n)%nat -> length l = K n -> count_lt (t * sqrt (INR n)) (lam n l) <= count_le (mass t * INR n) (u n l) <= count_le (t * sqrt (INR n)) (lam n l).
Proof.
  intros Hu Ht n l Hn Hl. assert (count_le (mass t * INR n) (u n l) = count_le (t * sqrt (INR n)) (lam n l)) as ->; [|split; [apply count_lt_le|lra]].
  rewrite <- count_scaled by assumption. apply total_perm. apply Permutation_sym. rewrite <- map_map. apply unfolded; auto. rewrite map_length. auto.
Qed.
Lemma uniform y e : (forall n l, (0 < n)%nat -> length l = K n -> unfold_goe (map (fun x => x / sqrt 2) (lam n l)) = Ok (u n l)) -> 0 <= y < 1 -> 0 < e ->
  exists N, forall n, (N <= n)%nat -> AverageWithin (K n) (fun l => count_le (y * INR n) (u n l) / INR n) (y - e) (y + e).
Proof.
  intros Hu Hy He. destruct (mass_onto y Hy) as (t & Ht & <-). exact (count_mean K lam v averages limits t (fun n l => count_le (mass t * INR n) (u n l)) (uniform_counts t Hu Ht) e He).
Qed.
Lemma uniform_square y e : (forall n l, (0 < n)%nat -> length l = K n -> unfold_goe (map (fun x => x / sqrt 2) (lam n l)) = Ok (u n l)) -> 0 <= y < 1 -> 0 < e ->
  exists N, forall n, (N <= n)%nat -> exists h w, (forall l, length l = K n -> (count_le (y * INR n) (u n l) / INR n - y) ^ 2 <= h l) /\ NormalAverage (K n) h w /\ w <= e.
Proof.
  intros Hu Hy He. destruct (mass_onto y Hy) as (t & Ht & <-). exact (count_square K lam v averages limits t (fun n l => count_le (mass t * INR n) (u n l)) (uniform_counts t Hu Ht) e He).
Qed.
End Unfold.
