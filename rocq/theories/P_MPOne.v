(** The Marchenko-Pastur law of ratio one: the squares of the points of the semicircle law. *)
From Coq Require Import List ZArith Bool Arith Lia Reals Lra.
From Coquelicot Require Import Coquelicot.
From Verif Require Import Base S_Generate S_Normal S_Rotate S_CCharPoly S_Moments S_Law S_MP P_Generate P_Surmise P_Rotate P_Moments P_Wishart P_Semi P_Approx P_Law P_LawUnfold P_MPLoop P_MP P_MPLaw T_Wishart.
Import ListNotations.
Local Open Scope R_scope.
Local Notation length := List.length.

(** ** Moments *)
Lemma one_moment k : mp_moment 1 k = semicircle_moment (2 * k).
Proof.
  induction k as [k IH] using lt_wf_ind. rewrite semi_even. destruct k as [|k]; [cbn [mp_moment]; now rewrite catalan_0|].
  rewrite mp_moment_S by lra. rewrite <- catalan_conv, SumTo_shift, catalan_0, Nat.sub_0_r, IH, semi_even, Rmult_1_l, Rmult_1_l by lia. f_equal.
  apply SumTo_ext. intros r Hr. rewrite !IH, !semi_even by lia. do 2 f_equal. lia.
Qed.
(** ** The even part of a polynomial, as a polynomial in the square *)
Fixpoint evens (cs : list R) : list R := match cs with [] => [] | [a] => [a] | a :: _ :: t => a :: evens t end.
Lemma pairs_ind (P : list R -> Prop) : P [] -> (forall a, P [a]) -> (forall a b t, P t -> P (a :: b :: t)) -> forall l, P l.
Proof. intros H0 H1 H2. fix F 1. intros [|a [|b t]]; [exact H0|apply H1|apply H2, F]. Qed.
Lemma evens_peval cs s : peval (evens cs) (s * s) = (peval cs s + peval cs (- s)) / 2.
Proof. induction cs as [|a|a b t IH] using pairs_ind; unfold peval in *; cbn [evens fold_right]; [field|field|]. rewrite IH. field. Qed.
Fixpoint lm (m : nat -> R) (j : nat) (cs : list R) : R := match cs with [] => 0 | c :: t => c * m j + lm m (S j) t end.
Lemma lm_sum m cs : forall j, lm m j cs = SumTo (length cs) (fun k => nth k cs 0 * m (j + k)%nat).
Proof.
  induction cs as [|c cs IH]; intro j; [reflexivity|]. cbn [lm length]. rewrite SumTo_shift. cbn [nth]. rewrite Nat.add_0_r. f_equal. rewrite IH. apply SumTo_ext. intros k _. do 2 f_equal. lia.
Qed.
Lemma lm_lmean m cs : lm m 0 cs = lmean m cs.
Proof. apply lm_sum. Qed.
Lemma evens_pm cs : forall j, lm (mp_moment 1) j (evens cs) = pm (2 * j) cs.
Proof.
  induction cs as [|a|a b t IH] using pairs_ind; intro j; cbn [evens lm pm]; rewrite ?one_moment; [reflexivity|reflexivity|]. rewrite IH, semi_odd. replace (2 * S j)%nat with (S (S (2 * j))) by lia. ring.
Qed.
Lemma evens_mean cs : lmean (mp_moment 1) (evens cs) = pmean cs.
Proof. rewrite <- lm_lmean, evens_pm. apply pm_pmean. Qed.
(** ** The distribution function *)
Definition twice (r : R) : R := mass r - mass (- r).
Lemma sides_one r e : 0 <= r -> 0 < e -> exists ps qs, (forall y, 0 <= y -> peval ps y <= if Rlt_dec y (r * r) then 1 else 0) /\ (forall y, 0 <= y -> (if Rle_dec y (r * r) then 1 else 0) <= peval qs y) /\
  Rabs (lmean (mp_moment 1) ps - twice r) <= e /\ Rabs (lmean (mp_moment 1) qs - twice r) <= e.
Proof.
  intros Hr He. destruct (step_sides r (e / 2) ltac:(lra)) as (p1 & q1 & P1 & Q1 & M1 & N1). destruct (step_sides (- r) (e / 2) ltac:(lra)) as (p2 & q2 & P2 & Q2 & M2 & N2).
  exists (evens (ladd p1 (lscale (-1) q2))), (evens (ladd q1 (lscale (-1) p2))).
  assert (forall y, 0 <= y -> exists s, 0 <= s /\ y = s * s) as SQ by (intros y Hy; exists (sqrt y); split; [apply sqrt_pos|now rewrite sqrt_sqrt]).
  rewrite !evens_mean, <- !pm_pmean, !pm_add, !pm_scale, !pm_pmean. unfold twice. split; [|split; [|split]].
  - intros y Hy. destruct (SQ y Hy) as (s & Hs & ->). rewrite evens_peval, !peval_add, !peval_lscale. pose proof (P1 s) as A1. pose proof (P1 (- s)) as A2. pose proof (Q2 s) as B1. pose proof (Q2 (- s)) as B2.
    destruct (Rlt_dec (s * s) (r * r)) as [H|H]; destruct (Rlt_dec s r); destruct (Rlt_dec (- s) r); destruct (Rle_dec s (- r)); destruct (Rle_dec (- s) (- r)); try lra; exfalso; nra.
  - intros y Hy. destruct (SQ y Hy) as (s & Hs & ->). rewrite evens_peval, !peval_add, !peval_lscale. pose proof (Q1 s) as A1. pose proof (Q1 (- s)) as A2. pose proof (P2 s) as B1. pose proof (P2 (- s)) as B2.
    destruct (Rle_dec (s * s) (r * r)) as [H|H]; destruct (Rle_dec s r); destruct (Rle_dec (- s) r); destruct (Rlt_dec s (- r)); destruct (Rlt_dec (- s) (- r)); try lra; exfalso; nra.
  - apply Rabs_le. apply Rabs_le_between in M1. apply Rabs_le_between in N2. lra.
  - apply Rabs_le. apply Rabs_le_between in N1. apply Rabs_le_between in M2. lra.
Qed.
Lemma mass_flip r : -2 <= r <= 2 -> mass (- r) = 1 - mass r.
Proof.
  intro Hr. pose proof PI_RGT_0. assert (r = 2 * sin (asin (r / 2))) as E by (rewrite sin_asin; lra). pose proof (asin_bound (r / 2)) as B. set (t := asin (r / 2)) in *. rewrite E. replace (- (2 * sin t)) with (2 * sin (- t)) by (rewrite sin_neg; ring).
  rewrite !mass_sin by lra. rewrite sin_neg, cos_neg. field. lra.
Qed.
Lemma twice_mass r : -2 <= r <= 2 -> twice r = 2 * mass r - 1.
Proof. intro H. unfold twice. rewrite mass_flip by exact H. ring. Qed.
Lemma twice_0 : twice 0 = 0.
Proof. unfold twice. rewrite Ropp_0. ring. Qed.
Lemma twice_2 : twice 2 = 1.
Proof. rewrite twice_mass, mass_2 by lra. ring. Qed.
Lemma twice_step a b : a <= b -> twice b <= twice a + 2 * (b - a).
Proof. intro H. unfold twice. pose proof (mass_slope a b H) as H1. pose proof (mass_slope (- b) (- a) ltac:(lra)) as H2. lra. Qed.
Lemma density_part a x : 0 < a <= x -> x <= 4 -> is_RInt (MPDensity 1 0 4) a x (twice (sqrt x) - twice (sqrt a)).
Proof.
  intros Ha Hx. pose proof PI_RGT_0 as HPI. assert (forall y, 0 < y -> y <= x -> 0 < sqrt y <= 2) as B.
  { intros y Hy Hl. split; [now apply sqrt_lt_R0|]. replace 2 with (sqrt 4) by (replace 4 with (2 * 2) by ring; apply sqrt_square; lra). apply sqrt_le_1; lra. }
  destruct (B a ltac:(lra) ltac:(lra)) as [A1 A2]. destruct (B x ltac:(lra) ltac:(lra)) as [X1 X2]. assert (sqrt a <= sqrt x) as AX by (apply sqrt_le_1; lra).
  assert (forall y, 0 < y -> continuous (MPDensity 1 0 4) y) as C.
  { intros y Hy. unfold MPDensity. apply (continuous_mult (K := R_AbsRing) (fun x => sqrt ((4 - x) * (x - 0))) (fun x => / (2 * PI * 1 * x))).
    - apply (continuous_comp (fun x => (4 - x) * (x - 0)) sqrt); [|apply continuous_sqrt]. apply (ex_derive_continuous (V := R_NormedModule)). auto_derive. exact I.
    - apply (ex_derive_continuous (V := R_NormedModule)). auto_derive. apply Rgt_not_eq. apply Rmult_lt_0_compat; lra. }
  assert (ex_RInt (MPDensity 1 0 4) a x) as EX by (apply (ex_RInt_continuous (V := R_CompleteNormedModule)); intros y Hy; rewrite Rmin_left, Rmax_right in Hy by lra; apply C; lra).
  pose proof (RInt_correct (V := R_CompleteNormedModule) _ _ _ EX) as RC. match goal with |- is_RInt _ _ _ ?w => replace w with (RInt (MPDensity 1 0 4) a x); [exact RC|] end.
  pose proof (is_RInt_comp (V := R_CompleteNormedModule) (MPDensity 1 0 4) (fun s => s * s) (fun s => 2 * s) (sqrt a) (sqrt x)) as CP. cbv beta in CP. rewrite !sqrt_sqrt in CP by lra.
  assert (is_RInt (fun s => scal (2 * s) (MPDensity 1 0 4 (s * s))) (sqrt a) (sqrt x) (RInt (MPDensity 1 0 4) a x)) as CQ.
  { apply CP.
    - intros s Hs. rewrite Rmin_left, Rmax_right in Hs by lra. apply C. apply Rmult_lt_0_compat; lra.
    - intros s Hs. split; [auto_derive; [exact I|ring]|]. apply (ex_derive_continuous (V := R_NormedModule)). auto_derive. exact I. }
  clear CP. transitivity (2 * RInt semicircle (sqrt a) (sqrt x)); [|rewrite mass_step, !twice_mass by lra; match goal with |- ?u = ?w => change (@eq R u w) end; ring].
  rewrite <- (is_RInt_unique (V := R_CompleteNormedModule) _ _ _ _ CQ). apply (is_RInt_unique (V := R_CompleteNormedModule)).
  refine (is_RInt_ext _ _ _ _ _ _ (is_RInt_scal (V := R_NormedModule) _ _ _ 2 _ (RInt_correct (V := R_CompleteNormedModule) _ _ _ (semicircle_ex (sqrt a) (sqrt x))))).
  intros s Hs. rewrite Rmin_left, Rmax_right in Hs by lra. match goal with |- _ = _ => change (@eq R (2 * semicircle s) (2 * s * MPDensity 1 0 4 (s * s))) end. unfold semicircle, MPDensity.
  replace ((4 - s * s) * (s * s - 0)) with ((4 - s * s) * (s * s)) by ring. rewrite (sqrt_mult (4 - s * s) (s * s)) by nra. rewrite sqrt_square by lra. field. lra.
Qed.
Lemma small_root e : 0 < e -> exists d, 0 < d /\ forall a, 0 < a < d -> 0 <= twice (sqrt a) < e.
Proof.
  intro He. exists (Rmin 4 (e / 4 * (e / 4))). split; [apply Rmin_case; [lra|apply Rmult_lt_0_compat; lra]|]. intros a Ha. assert (a < 4 /\ a < e / 4 * (e / 4)) as [H4 H1] by (split; apply (Rlt_le_trans _ _ _ (proj2 Ha)); [apply Rmin_l|apply Rmin_r]).
  assert (sqrt a < e / 4) as H by (rewrite <- (sqrt_square (e / 4)) by lra; apply sqrt_lt_1; lra). pose proof (sqrt_pos a) as P. pose proof (twice_step 0 (sqrt a) P) as T. rewrite twice_0 in T. split; [|lra].
  unfold twice. pose proof (mass_slope (- sqrt a) (sqrt a) ltac:(lra)). lra.
Qed.
(** The density of ratio one is unbounded at zero; its improper integral. *)
Lemma density_one x : 0 < x <= 4 -> is_RInt_gen (MPDensity 1 0 4) (at_right 0) (at_point x) (twice (sqrt x)).
Proof.
  intros Hx P (eps & HP). destruct (small_root eps (cond_pos eps)) as (d & Hd & S). exists (fun a => 0 < a < Rmin d x) (fun y => y = x).
  - assert (0 < Rmin d x) as Hm by (apply Rmin_case; lra). exists (mkposreal _ Hm). intros y Hy H0. split; [exact H0|]. unfold ball in Hy. cbn in Hy. unfold AbsRing_ball, abs, minus, plus, opp in Hy. cbn in Hy. rewrite Ropp_0, Rplus_0_r, Rabs_pos_eq in Hy by lra. exact Hy.
  - reflexivity.
  - intros a y Ha ->. cbn [fst snd]. assert (a < d /\ a < x) as [A1 A2] by (split; apply (Rlt_le_trans _ _ _ (proj2 Ha)); [apply Rmin_l|apply Rmin_r]). exists (twice (sqrt x) - twice (sqrt a)). split; [apply density_part; lra|].
    apply HP. unfold ball. cbn. unfold AbsRing_ball, abs, minus, plus, opp. cbn. specialize (S a ltac:(lra)). apply Rabs_def1; lra.
Qed.
Lemma one_value x p : 0 < x <= 4 -> is_RInt_gen (MPDensity 1 0 4) (at_right 0) (at_point x) p -> p = twice (sqrt x).
Proof.
  intros Hx Hp. pose proof (density_one x Hx) as H1. pose proof (is_RInt_gen_unique (V := R_CompleteNormedModule) _ _ Hp) as U1. pose proof (is_RInt_gen_unique (V := R_CompleteNormedModule) _ _ H1) as U2. rewrite <- U1. exact U2.
Qed.
