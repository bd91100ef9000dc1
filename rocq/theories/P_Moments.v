(** Averages of polynomials in independent standard normal numbers, and of products of functions of different ones. *)
From Coq Require Import List Arith Lia Reals Lra.
From Coquelicot Require Import Coquelicot.
From Verif Require Import S_Generate S_Normal P_Generate P_Surmise P_Rotate.
Import ListNotations.
Local Open Scope R_scope.

Lemma exp_power k y : 0 <= y -> (y / INR (S k)) ^ S k <= exp y.
Proof.
  intro Hy. assert (0 < INR (S k)) as Hk by (apply lt_0_INR; lia). assert (0 <= y / INR (S k)) as H0 by (apply Rdiv_le_0_compat; lra).
  assert (forall m z, exp (INR m * z) = exp z ^ m) as E.
  { induction m as [|m IH]; intro z; [cbn; rewrite Rmult_0_l; apply exp_0|]. rewrite S_INR, Rmult_plus_distr_r, Rmult_1_l, exp_plus, IH. cbn. ring. }
  replace y with (INR (S k) * (y / INR (S k))) at 2 by (field; lra). rewrite E. apply pow_incr. split; [exact H0|]. pose proof (exp_ineq1_le (y / INR (S k))). lra.
Qed.
Lemma phi_power_bound k : exists C, 0 < C /\ forall x, phi x * (x * x) ^ S k <= C.
Proof.
  assert (0 < INR (S k)) as Hk by (apply lt_0_INR; lia). exists ((2 * INR (S k)) ^ S k). split; [apply pow_lt; lra|]. intro x.
  assert (0 <= x * x) as Hx by apply Rle_0_sqr. pose proof (exp_power k (x * x / 2) ltac:(lra)) as H.
  assert ((x * x) ^ S k <= (2 * INR (S k)) ^ S k * exp (x * x / 2)) as H1.
  { replace (x * x) with (2 * INR (S k) * (x * x / 2 / INR (S k))) at 1 by (field; lra). rewrite Rpow_mult_distr. apply Rmult_le_compat_l; [apply pow_le; lra|exact H]. }
  unfold normal_density. assert (1 <= sqrt (2 * PI)) as H2 by (rewrite <- sqrt_1; apply sqrt_le_1; pose proof PI2_3_2; lra).
  pose proof (exp_pos (- (x * x) / 2)) as K0.
  assert (exp (- (x * x) / 2) * exp (x * x / 2) = 1) as K1 by (rewrite <- exp_plus; replace (- (x * x) / 2 + x * x / 2) with 0 by field; apply exp_0).
  assert (0 < (2 * INR (S k)) ^ S k) as H4 by (apply pow_lt; lra). set (B := (2 * INR (S k)) ^ S k) in *. set (P := (x * x) ^ S k) in *.
  assert (exp (- (x * x) / 2) * P <= B) as H3.
  { apply Rle_trans with (exp (- (x * x) / 2) * (B * exp (x * x / 2))); [apply Rmult_le_compat_l; lra|]. apply Req_le. transitivity (B * (exp (- (x * x) / 2) * exp (x * x / 2))); [ring|rewrite K1; ring]. }
  apply Rmult_le_reg_r with (sqrt (2 * PI)); [lra|]. replace (exp (- (x * x) / 2) / sqrt (2 * PI) * P * sqrt (2 * PI)) with (exp (- (x * x) / 2) * P) by (field; lra).
  apply Rle_trans with (B * 1); [lra|]. apply Rmult_le_compat_l; lra.
Qed.
Lemma phi_power_small n e : 0 < e -> exists M, 0 < M /\ forall x, M <= Rabs x -> Rabs (x ^ n * phi x) < e.
Proof.
  intro He. destruct (phi_power_bound n) as (C & HC & HB). exists (1 + C / e). assert (0 < C / e) by (apply Rdiv_lt_0_compat; lra). split; [lra|]. intros x Hx.
  specialize (HB x). pose proof (phi_pos x) as Hphi. assert (x * x = Rabs x * Rabs x) as Ex by (rewrite <- Rabs_mult; rewrite Rabs_pos_eq; [ring|apply Rle_0_sqr]).
  rewrite Rabs_mult, (Rabs_pos_eq (phi x)), <- RPow_abs by lra. rewrite Ex in HB. set (y := Rabs x) in *.
  assert (1 <= y) as Hy by lra. assert (1 <= y ^ n) as Hn by (apply pow_R1_Rle; lra).
  assert (y ^ n * phi x * y <= C) as HD.
  { apply Rle_trans with (phi x * (y * y) ^ S n); [|exact HB]. rewrite Rpow_mult_distr. cbn [pow].
    replace (phi x * (y * y ^ n * (y * y ^ n))) with (y ^ n * phi x * y * (y * y ^ n)) by ring.
    rewrite <- (Rmult_1_r (y ^ n * phi x * y)) at 1. apply Rmult_le_compat_l; [apply Rmult_le_pos; [apply Rmult_le_pos|]; lra|]. apply Rle_trans with (1 * 1); [lra|]. apply Rmult_le_compat; lra. }
  destruct (Rlt_le_dec (y ^ n * phi x) e) as [G|G]; [exact G|]. exfalso.
  assert (e * (1 + C / e) <= y ^ n * phi x * y) by (apply Rmult_le_compat; lra). assert (C / e * e = C) by (field; lra). lra.
Qed.

(** All moments. *)
Lemma moment_step n v : WholeLine (fun x => phi x * x ^ n) v -> WholeLine (fun x => phi x * x ^ S (S n)) (INR (S n) * v).
Proof.
  intros (W1 & W2).
  assert (forall a b, is_RInt (fun x => phi x * x ^ S (S n)) a b (INR (S n) * RInt (fun x => phi x * x ^ n) a b + (- (b ^ S n * phi b) - - (a ^ S n * phi a)))) as HI.
  { intros a b. apply (is_RInt_ext (fun x => INR (S n) * (phi x * x ^ n) + (x * x ^ n * (x * phi x) - INR (S n) * x ^ n * phi x))); [intros x _; match goal with |- ?a = ?b => change (@eq R a b) end; cbn [pow]; ring|].
    apply (is_RInt_plus (V := R_NormedModule) (fun x => INR (S n) * (phi x * x ^ n)) (fun x => x * x ^ n * (x * phi x) - INR (S n) * x ^ n * phi x)).
    - apply (is_RInt_scal (V := R_NormedModule)), (RInt_correct (V := R_CompleteNormedModule)), W1.
    - apply (is_RInt_derive (V := R_CompleteNormedModule) (fun x => - (x ^ S n * phi x))).
      + intros x _. evar_last.
        * apply (is_derive_opp (V := R_NormedModule)). apply (is_derive_mult (fun x => x ^ S n) phi); [apply is_derive_pow, is_derive_id|apply phi_derive|apply Rmult_comm].
        * unfold opp, plus, mult, one. cbn [Nat.pred pow]. cbn -[INR pow]. match goal with |- ?a = ?b => change (@eq R a b) end. cbn [pow]. ring.
      + intros x _. apply (continuous_minus (V := R_NormedModule)).
        * apply (continuous_mult (K := R_AbsRing) (fun x => x * x ^ n) (fun x => x * phi x)).
          -- apply (ex_derive_continuous (fun x => x * x ^ n)). auto_derive. exact I.
          -- apply (continuous_mult (K := R_AbsRing)); [apply continuous_id|apply phi_cont].
        * apply (continuous_mult (K := R_AbsRing) (fun x => INR (S n) * x ^ n) phi); [|apply phi_cont]. apply (ex_derive_continuous (fun x => INR (S n) * x ^ n)). auto_derive. exact I. }
  split; [intros a b; eexists; apply HI|]. intros e He. assert (0 < INR (S n)) as Hn by (apply lt_0_INR; lia).
  destruct (W2 (e / 3 / INR (S n))) as (M' & HM'); [repeat apply Rdiv_lt_0_compat; lra|].
  destruct (phi_power_small (S n) (e / 3)) as (M & HM0 & HM); [lra|]. exists (Rmax M M'). intros a b Ha Hb. pose proof (Rmax_l M M'). pose proof (Rmax_r M M').
  rewrite (is_RInt_unique (V := R_CompleteNormedModule) _ _ _ _ (HI a b)). specialize (HM' a b ltac:(lra) ltac:(lra)).
  assert (Rabs (a ^ S n * phi a) < e / 3) as A by (apply HM; rewrite Rabs_left; lra). assert (Rabs (b ^ S n * phi b) < e / 3) as B by (apply HM; rewrite Rabs_pos_eq; lra).
  assert (Rabs (INR (S n) * (RInt (fun x => phi x * x ^ n) a b - v)) < e / 3) as D.
  { rewrite Rabs_mult, (Rabs_pos_eq (INR (S n))) by lra. apply Rlt_le_trans with (INR (S n) * (e / 3 / INR (S n))); [apply Rmult_lt_compat_l; assumption|]. apply Req_le. field. lra. }
  apply Rabs_def2 in D. apply Rabs_def2 in A. apply Rabs_def2 in B. apply Rabs_def1; lra.
Qed.
Fixpoint moment (n : nat) : R := match n with O => 1 | S O => 0 | S (S k as m) => INR m * moment k end.
Lemma moments n : WholeLine (fun x => phi x * x ^ n) (moment n).
Proof.
  assert (WholeLine (fun x => phi x * x ^ n) (moment n) /\ WholeLine (fun x => phi x * x ^ S n) (moment (S n))) as [H _]; [|exact H].
  induction n as [|n [I1 I2]].
  - split; [apply (whole_ext phi); [intro x; cbn; ring|exact phi_whole]|apply (whole_ext (fun x => phi x * x)); [intro x; cbn; ring|exact moment1]].
  - split; [exact I2|]. exact (moment_step n (moment n) I1).
Qed.

(** Polynomials. *)
Fixpoint mono (es : list nat) (l : list R) : R := match es, l with e :: es', x :: l' => x ^ e * mono es' l' | _, _ => 1 end.
Lemma mono_avg k : forall es, exists v, NormalAverage k (mono es) v.
Proof.
  induction k as [|k IH]; intro es; [exists (mono es []); reflexivity|]. destruct es as [|e es]; [exists 1; exact (navg_const (S k) 1)|].
  destruct (IH es) as [v Hv]. exists (v * moment e). apply (navg_first k _ (fun x => x ^ e * v)); [intro x; cbn [mono]; now apply navg_scale|].
  pose proof (whole_lin _ _ _ _ v 0 (moments e) (moments e)) as H. rewrite Rmult_0_l, Rplus_0_r in H. revert H. apply whole_ext. intro x. ring.
Qed.
Fixpoint mul_exp (a b : list nat) : list nat := match a, b with [], _ => b | _, [] => a | x :: a', y :: b' => (x + y)%nat :: mul_exp a' b' end.
Lemma mono_mul a : forall b l, mono (mul_exp a b) l = mono a l * mono b l.
Proof.
  induction a as [|x a IH]; intros b l; [cbn; ring|]. destruct b as [|y b]; [cbn [mul_exp]; cbn; destruct l; ring|]. cbn [mul_exp mono]. destruct l as [|z l]; [ring|].
  rewrite IH, pow_add. ring.
Qed.
Definition value (p : list (R * list nat)) (l : list R) : R := fold_right (fun ce s => fst ce * mono (snd ce) l + s) 0 p.
Definition Polynomial (k : nat) (f : list R -> R) : Prop := exists p, forall l, length l = k -> f l = value p l.
Lemma poly_avg k f : Polynomial k f -> exists v, NormalAverage k f v.
Proof.
  intros (p & Hp). assert (exists v, NormalAverage k (value p) v) as (v & Hv).
  { clear. induction p as [|[c es] p (v & Hv)]; [exists 0; exact (navg_const k 0)|]. destruct (mono_avg k es) as [w Hw]. exists (c * w + 1 * v).
    refine (navg_ext _ _ _ _ _ (navg_lin k (mono es) (value p) w v c 1 Hw Hv)). intros l _. unfold value. cbn [fold_right fst snd]. ring. }
  exists v. refine (navg_ext _ _ _ _ _ Hv). intros l Hl. symmetry. auto.
Qed.
Lemma poly_ext k f g : (forall l, length l = k -> f l = g l) -> Polynomial k f -> Polynomial k g.
Proof. intros E (p & Hp). exists p. intros l Hl. rewrite <- E by exact Hl. auto. Qed.
Lemma poly_const k c : Polynomial k (fun _ => c).
Proof. exists [(c, [])]. intros l _. cbn. ring. Qed.
Lemma poly_coord k i : (i < k)%nat -> Polynomial k (fun l => nth i l 0).
Proof.
  intro Hi. exists [(1, repeat O i ++ [1%nat])]. intros l Hl. unfold value. cbn [fold_right fst snd]. rewrite Rmult_1_l, Rplus_0_r. subst k. revert i Hi. induction l as [|x l IH]; intros i Hi; [cbn in Hi; lia|].
  destruct i as [|i]; [cbn; ring|]. cbn [nth repeat app mono pow]. rewrite Rmult_1_l. apply IH. cbn in Hi. lia.
Qed.
Lemma value_app p q l : value (p ++ q) l = value p l + value q l.
Proof. unfold value. induction p as [|c p IH]; cbn [app fold_right]; [ring|]. rewrite IH. ring. Qed.
Lemma poly_add k f g : Polynomial k f -> Polynomial k g -> Polynomial k (fun l => f l + g l).
Proof. intros (p & Hp) (q & Hq). exists (p ++ q). intros l Hl. now rewrite value_app, Hp, Hq. Qed.
Lemma value_term c es q l : value (map (fun ce => (c * fst ce, mul_exp es (snd ce))) q) l = c * mono es l * value q l.
Proof. unfold value. induction q as [|d q IH]; cbn [map fold_right fst snd]; [ring|]. rewrite IH, mono_mul. ring. Qed.
Lemma poly_mul k f g : Polynomial k f -> Polynomial k g -> Polynomial k (fun l => f l * g l).
Proof.
  intros (p & Hp) (q & Hq). exists (flat_map (fun ce => map (fun de => (fst ce * fst de, mul_exp (snd ce) (snd de))) q) p). intros l Hl. rewrite Hp, Hq by exact Hl. clear Hp Hq.
  induction p as [|c p IH]; cbn [flat_map]; [cbn; ring|]. rewrite value_app, <- IH, value_term. cbn [value fold_right]. fold (value p l). ring.
Qed.
Lemma poly_scale k f c : Polynomial k f -> Polynomial k (fun l => c * f l).
Proof. intro H. exact (poly_mul k (fun _ => c) f (poly_const k c) H). Qed.
Lemma poly_SumTo k n (f : nat -> list R -> R) : (forall i, (i < n)%nat -> Polynomial k (f i)) -> Polynomial k (fun l => SumTo n (fun i => f i l)).
Proof.
  induction n as [|n IH]; intro H; cbn [SumTo]; [apply poly_const|]. apply (poly_add k (fun l => SumTo n (fun i => f i l)) (f n)); [apply IH; auto|apply H; lia].
Qed.

(** Uniqueness of averages and independence. *)
Lemma whole_value f u v : WholeLine f u -> WholeLine f v -> u = v.
Proof.
  intros (_ & U) (_ & V). destruct (Req_dec u v) as [E|N]; [exact E|exfalso]. assert (0 < Rabs (u - v)) as Hp by (apply Rabs_pos_lt; lra).
  destruct (U (Rabs (u - v) / 2)) as (M & HM); [lra|]. destruct (V (Rabs (u - v) / 2)) as (M' & HM'); [lra|]. pose proof (Rmax_l M M'). pose proof (Rmax_r M M').
  specialize (HM (- Rmax M M') (Rmax M M') ltac:(lra) ltac:(lra)). specialize (HM' (- Rmax M M') (Rmax M M') ltac:(lra) ltac:(lra)). set (r := RInt f _ _) in *.
  assert (Rabs (u - v) <= Rabs (r - u) + Rabs (r - v)); [|lra]. replace (u - v) with (- (r - u) + (r - v)) by ring. eapply Rle_trans; [apply Rabs_triang|]. rewrite Rabs_Ropp. lra.
Qed.
Lemma navg_unique k : forall f u v, NormalAverage k f u -> NormalAverage k f v -> u = v.
Proof.
  induction k as [|k IH]; intros f u v; cbn [NormalAverage]; [congruence|]. intros (p & P1 & P2) (q & Q1 & Q2).
  apply (whole_value (fun x => phi x * p x)); [exact P2|]. revert Q2. apply whole_ext. intro x. f_equal. apply (IH (fun l => f (x :: l))); auto.
Qed.
(** [f] uses only the numbers in the places [A]. *)
Definition Uses (k : nat) (A : nat -> bool) (f : list R -> R) : Prop :=
  forall l l', length l = k -> length l' = k -> (forall i, (i < k)%nat -> A i = true -> nth i l 0 = nth i l' 0) -> f l = f l'.
Lemma uses_tail k A f x : Uses (S k) A f -> Uses k (fun i => A (S i)) (fun l => f (x :: l)).
Proof.
  intros H l l' Hl Hl' E. apply H; [cbn; now rewrite Hl|cbn; now rewrite Hl'|]. intros [|i] Hi HA; [reflexivity|]. cbn. apply E; [lia|exact HA].
Qed.
Lemma uses_head k A f x y : Uses (S k) A f -> A O = false -> forall l, length l = k -> f (x :: l) = f (y :: l).
Proof. intros H HA l Hl. apply H; [cbn; now rewrite Hl|cbn; now rewrite Hl|]. intros [|i] Hi HB; [congruence|reflexivity]. Qed.
Lemma navg_unused k A f v : NormalAverage (S k) f v -> Uses (S k) A f -> A O = false -> forall x, NormalAverage k (fun l => f (x :: l)) v.
Proof.
  intros (p & P1 & P2) HU HA x. assert (forall y, p y = p x) as E.
  { intro y. apply (navg_unique k (fun l => f (y :: l))); [apply P1|]. refine (navg_ext _ _ _ _ _ (P1 x)). intros l Hl. now apply (uses_head k A f x y). }
  assert (v = p x) as ->; [|apply P1]. apply (whole_value (fun y => phi y * p x)); [|apply phi_times]. revert P2. apply whole_ext. intro y. now rewrite E.
Qed.
Lemma navg_indep k : forall A f g u v, Uses k A f -> Uses k (fun i => negb (A i)) g -> NormalAverage k f u -> NormalAverage k g v ->
  NormalAverage k (fun l => f l * g l) (u * v).
Proof.
  induction k as [|k IH]; intros A f g u v Hf Hg F G; [cbn in *; now subst|]. destruct (A O) eqn:HA.
  - pose proof (navg_unused k _ g v G Hg ltac:(cbn; now rewrite HA)) as G'. destruct F as (p & P1 & P2). apply (navg_first k _ (fun x => p x * v)).
    + intro x. apply (IH (fun i => A (S i)) (fun l => f (x :: l)) (fun l => g (x :: l))); [now apply uses_tail|apply (uses_tail k (fun i => negb (A i))); exact Hg|apply P1|apply G'].
    + pose proof (whole_lin _ _ _ _ v 0 P2 P2) as H. rewrite Rmult_0_l, Rplus_0_r, (Rmult_comm v u) in H. revert H. apply whole_ext. intro x. ring.
  - pose proof (navg_unused k _ f u F Hf HA) as F'. destruct G as (p & P1 & P2). apply (navg_first k _ (fun x => u * p x)).
    + intro x. apply (IH (fun i => A (S i)) (fun l => f (x :: l)) (fun l => g (x :: l))); [now apply uses_tail|apply (uses_tail k (fun i => negb (A i))); exact Hg|apply F'|apply P1].
    + pose proof (whole_lin _ _ _ _ u 0 P2 P2) as H. rewrite Rmult_0_l, Rplus_0_r in H. revert H. apply whole_ext. intro x. ring.
Qed.
