(** Quadrature errors for functions of bounded variation, and the exact least-squares line of a staircase. *)
From Coq Require Import List ZArith Bool Arith Lia Reals Lra.
From Coquelicot Require Import Coquelicot.
From Verif Require Import Base S_Order S_EigVals S_Trim M_Step M_Quad S_Quad S_Rigidity P_Order P_Step P_EigVals P_TrimStat P_Quad P_Ols T_RigidityMean.
Import ListNotations.
Local Open Scope R_scope.
Local Notation length := List.length.

(** ** One cell *)
Lemma cell (g : R -> R) a b w K I : a <= b -> (forall t, a <= t <= b -> Rabs (g t - w) <= K) -> is_RInt g a b I -> Rabs (I - (b - a) * w) <= (b - a) * K.
Proof.
  intros Hab H HI. pose proof (is_RInt_minus (V := R_NormedModule) g (fun _ => w) a b I _ HI (is_RInt_const (V := R_NormedModule) a b w)) as J.
  exact (norm_RInt_le_const (V := R_NormedModule) _ a b _ K Hab H J).
Qed.

Section Rules.
Variables (g V : R -> R) (lo s : R) (M : nat).
Hypothesis Hs : 0 < s.
Let x (i : nat) : R := lo + INR i * s.
Hypothesis HV : forall p q, lo <= p -> p <= q -> q <= x M -> Rabs (g q - g p) <= V q - V p.
Hypothesis HI : ex_RInt g lo (x M).
Lemma x_le i j : (i <= j)%nat -> x i <= x j.
Proof. intros H. unfold x. apply le_INR in H. nra. Qed.
Lemma x_S i : x (S i) = x i + s.
Proof. unfold x. rewrite S_INR. ring. Qed.
Lemma x_0 : x 0 = lo.
Proof. unfold x. cbn. ring. Qed.
Lemma ex_sub i j : (i <= j)%nat -> (j <= M)%nat -> ex_RInt g (x i) (x j).
Proof.
  intros Hi Hj. pose proof (x_le i j Hi). pose proof (x_le j M Hj). pose proof (x_le 0 i ltac:(lia)) as H1. rewrite x_0 in H1.
  apply (ex_RInt_Chasles_1 (V := R_CompleteNormedModule) g (x i) (x j) (x M)); [lra|]. apply (ex_RInt_Chasles_2 (V := R_CompleteNormedModule) g lo (x i) (x M)); [lra|exact HI].
Qed.
Lemma V_mono i j : (i <= j)%nat -> (j <= M)%nat -> V (x i) <= V (x j).
Proof.
  intros Hi Hj. pose proof (HV (x i) (x j)) as H. pose proof (x_le 0 i ltac:(lia)) as H1. rewrite x_0 in H1. pose proof (x_le i j Hi). pose proof (x_le j M Hj).
  specialize (H ltac:(lra) ltac:(lra) ltac:(lra)). pose proof (Rabs_pos (g (x j) - g (x i))). lra.
Qed.
Lemma near i j k t : (i <= k)%nat -> (k <= j)%nat -> (j <= M)%nat -> x i <= t <= x j -> Rabs (g (x k) - g t) <= V (x j) - V (x i).
Proof.
  intros Hi Hk Hj Ht. pose proof (x_le 0 i ltac:(lia)) as H1. rewrite x_0 in H1. pose proof (x_le i k Hi). pose proof (x_le k j Hk). pose proof (x_le j M Hj).
  assert (Vm : forall p q, x i <= p -> p <= q -> q <= x j -> V p <= V q).
  { intros p q A B C. pose proof (HV p q ltac:(lra) B ltac:(lra)). pose proof (Rabs_pos (g q - g p)). lra. }
  destruct (Rle_dec t (x k)) as [C|C].
  - pose proof (HV t (x k) ltac:(lra) C ltac:(lra)). pose proof (Vm (x i) t ltac:(lra) ltac:(lra) ltac:(lra)). pose proof (Vm (x k) (x j) ltac:(lra) ltac:(lra) ltac:(lra)). lra.
  - pose proof (HV (x k) t ltac:(lra) ltac:(lra) ltac:(lra)) as B. rewrite Rabs_minus_sym in B. pose proof (Vm (x i) (x k) ltac:(lra) ltac:(lra) ltac:(lra)). pose proof (Vm t (x j) ltac:(lra) ltac:(lra) ltac:(lra)). lra.
Qed.
(** A combination of values at points of the cells i..j with weights w0, w1, w2 of sum 1. *)
Lemma cells i j k0 k1 k2 w0 w1 w2 : (i < j)%nat -> (j <= M)%nat -> (i <= k0 <= j)%nat -> (i <= k1 <= j)%nat -> (i <= k2 <= j)%nat -> w0 + w1 + w2 = 1 ->
  Rabs (RInt g (x i) (x j) - (x j - x i) * (w0 * g (x k0) + w1 * g (x k1) + w2 * g (x k2))) <= (x j - x i) * ((Rabs w0 + Rabs w1 + Rabs w2) * (V (x j) - V (x i))).
Proof.
  intros Hij Hj H0 H1 H2 Hw. apply (cell g); [apply x_le; lia| |apply (RInt_correct (V := R_CompleteNormedModule)), ex_sub; lia].
  intros t Ht. pose proof (near i j k0 t ltac:(lia) ltac:(lia) Hj Ht) as A0. pose proof (near i j k1 t ltac:(lia) ltac:(lia) Hj Ht) as A1. pose proof (near i j k2 t ltac:(lia) ltac:(lia) Hj Ht) as A2.
  set (K := V (x j) - V (x i)) in *. set (a0 := g (x k0)) in *. set (a1 := g (x k1)) in *. set (a2 := g (x k2)) in *.
  replace (g t - (w0 * a0 + w1 * a1 + w2 * a2)) with (- (w0 * (a0 - g t) + w1 * (a1 - g t) + w2 * (a2 - g t))) by (replace w0 with (1 - w1 - w2) by lra; ring).
  rewrite Rabs_Ropp. eapply Rle_trans; [apply Rabs_triang|]. eapply Rle_trans; [apply Rplus_le_compat_r, Rabs_triang|]. rewrite !Rabs_mult.
  pose proof (Rabs_pos w0). pose proof (Rabs_pos w1). pose proof (Rabs_pos w2). nra.
Qed.
Lemma RInt_step i j : (i <= j)%nat -> (j <= M)%nat -> RInt g lo (x j) = RInt g lo (x i) + RInt g (x i) (x j).
Proof.
  intros Hi Hj. pose proof (RInt_Chasles (V := R_CompleteNormedModule) g lo (x i) (x j)) as C. unfold plus in C. cbn in C. symmetry. apply C.
  - rewrite <- x_0. apply ex_sub; lia.
  - now apply ex_sub.
Qed.
Lemma RInt_nil : RInt g lo (x 0) = 0.
Proof. rewrite x_0. exact (RInt_point (V := R_CompleteNormedModule) lo g). Qed.

Variable gr : list R.
Hypothesis Hlen : length gr = S M.
Hypothesis Hgr : forall i, (i <= M)%nat -> nth i gr 0 = x i.
Let v := map g gr.
Lemma v_nth i : (i <= M)%nat -> nth i v 0 = g (x i).
Proof. intros H. unfold v. rewrite (nth_map_in g gr i 0 0) by lia. now rewrite Hgr. Qed.
Lemma gr_uniform : Uniform s gr.
Proof.
  intros i a b Ha Hb. assert (S i < length gr)%nat by (apply nth_error_Some; congruence).
  apply nth_error_nth with (d := 0) in Ha. apply nth_error_nth with (d := 0) in Hb. rewrite Hgr in Ha, Hb by lia. subst. rewrite x_S. ring.
Qed.
Lemma trap_err n : (n <= M)%nat -> Rabs (RInt g lo (x n) - trap gr v n) <= s * (V (x n) - V lo).
Proof.
  induction n as [|n IH]; intros H.
  - rewrite RInt_nil, x_0. unfold trap. cbn. rewrite Rminus_0_r, Rabs_R0. lra.
  - specialize (IH ltac:(lia)). rewrite trap_S, (RInt_step n (S n)) by lia. rewrite !Hgr, !v_nth by lia.
    pose proof (cells n (S n) n (S n) n (1/2) (1/2) 0 ltac:(lia) H ltac:(lia) ltac:(lia) ltac:(lia) ltac:(lra)) as C.
    rewrite (Rabs_pos_eq (1/2)), Rabs_R0 in C by lra. rewrite x_S in *. apply Rabs_le_between in IH. apply Rabs_le_between in C. apply Rabs_le_between. lra.
Qed.
Lemma simp_err n : (2 * n <= M)%nat -> Rabs (RInt g lo (x (2 * n)) - simp gr v n) <= 2 * s * (V (x (2 * n)) - V lo).
Proof.
  induction n as [|n IH]; intros H.
  - change (2 * 0)%nat with 0%nat. rewrite RInt_nil, x_0. unfold simp. cbn. rewrite Rminus_0_r, Rabs_R0. lra.
  - specialize (IH ltac:(lia)). rewrite simp_S. replace (2 * n + 1)%nat with (S (2 * n)) by lia. rewrite (sp_uniform s) by (auto using gr_uniform; lia).
    replace (2 * S n)%nat with (S (S (2 * n))) in * by lia. rewrite (RInt_step (2 * n) (S (S (2 * n)))) by lia. rewrite !v_nth by lia.
    pose proof (cells (2 * n) (S (S (2 * n))) (2 * n) (S (2 * n)) (S (S (2 * n))) (1/6) (4/6) (1/6) ltac:(lia) H ltac:(lia) ltac:(lia) ltac:(lia) ltac:(lra)) as C.
    rewrite (Rabs_pos_eq (1/6)), (Rabs_pos_eq (4/6)) in C by lra. set (m := (2 * n)%nat) in *. clearbody m. rewrite !x_S in *.
    apply Rabs_le_between in IH. apply Rabs_le_between in C. apply Rabs_le_between. lra.
Qed.
Lemma corr_err m : (S (S m) <= M)%nat -> Rabs (RInt g (x (S m)) (x (S (S m))) - corr gr v (S (S m))) <= s * (7 / 6 * (V (x (S (S m))) - V (x m))).
Proof.
  intros H. rewrite (corr_uniform s) by (auto using gr_uniform; lia). rewrite !v_nth by lia.
  assert (C : Rabs (RInt g (x (S m)) (x (S (S m))) - (x (S (S m)) - x (S m)) * ((5 * g (x (S (S m))) + 8 * g (x (S m)) - g (x m)) / 12))
    <= (x (S (S m)) - x (S m)) * (7 / 6 * (V (x (S (S m))) - V (x m)))).
  { apply (cell g); [apply x_le; lia| |apply (RInt_correct (V := R_CompleteNormedModule)), ex_sub; lia].
    intros t Ht. assert (Ht' : x m <= t <= x (S (S m))) by (pose proof (x_le m (S m) ltac:(lia)); lra).
    pose proof (near m (S (S m)) m t ltac:(lia) ltac:(lia) H Ht') as A0. pose proof (near m (S (S m)) (S m) t ltac:(lia) ltac:(lia) H Ht') as A1. pose proof (near m (S (S m)) (S (S m)) t ltac:(lia) ltac:(lia) H Ht') as A2.
    apply Rabs_le_between in A0. apply Rabs_le_between in A1. apply Rabs_le_between in A2. apply Rabs_le_between. lra. }
  rewrite !x_S in *. apply Rabs_le_between in C. apply Rabs_le_between. lra.
Qed.
Lemma rule_err (simpson : bool) : (2 <= M)%nat ->
  Rabs (RInt g lo (x M) - (if simpson then int_simps_nonunif gr v else integrate_fast gr v)) <= 4 * s * (V (x M) - V lo).
Proof.
  intros HM. assert (P : V lo <= V (x M)) by (rewrite <- x_0; apply V_mono; lia). assert (0 <= s * (V (x M) - V lo)) by (apply Rmult_le_pos; lra). destruct simpson.
  - rewrite (simpson_split gr v M HM Hlen). destruct (half_cases M) as [(E & O)|(E & O)]; rewrite O.
    + pose proof (simp_err (M / 2) ltac:(lia)) as B. rewrite <- E in B. rewrite Rplus_0_r. lra.
    + assert (E3 : exists k, (M / 2 = S k)%nat) by (exists (M / 2 - 1)%nat; lia). destruct E3 as (k & E3). rewrite E3 in *.
      pose proof (simp_err (S k) ltac:(lia)) as B. replace (2 * S k)%nat with (S (S (2 * k))) in * by lia.
      pose proof (corr_err (S (2 * k)) ltac:(lia)) as C. replace (S (S (S (2 * k)))) with M in * by lia.
      rewrite (RInt_step (S (S (2 * k))) M) by lia. pose proof (V_mono 0 (S (2 * k)) ltac:(lia) ltac:(lia)) as W1. rewrite x_0 in W1.
      pose proof (V_mono (S (S (2 * k))) M ltac:(lia) ltac:(lia)) as W2.
      apply Rabs_le_between in B. apply Rabs_le_between in C. apply Rabs_le_between.
      assert (s * (7 / 6 * (V (x M) - V (x (S (2 * k))))) <= s * (7 / 6 * (V (x M) - V lo))) by (apply Rmult_le_compat_l; lra).
      assert (2 * s * (V (x (S (S (2 * k)))) - V lo) <= 2 * s * (V (x M) - V lo)) by (apply Rmult_le_compat_l; lra). lra.
  - rewrite integrate_fast_trap, Hlen. replace (S M - 1)%nat with M by lia. pose proof (trap_err M (le_n M)). lra.
Qed.
(** The mean of the values at the grid points. *)
Lemma mean_err : (1 <= M)%nat -> Rabs (RInt g lo (x M) / (INR M * s) - Rsum v / INR (S M)) <= 2 * (V (x M) - V lo) / INR (S M).
Proof.
  intros HM. assert (HM0 : 0 < INR M) by (apply lt_0_INR; lia). assert (HS : 0 < INR (S M)) by (apply lt_0_INR; lia).
  pose proof (trap_err M (le_n M)) as T. assert (Lv : length v = length gr) by (unfold v; now rewrite map_length).
  rewrite (trap_uniform s gr v gr_uniform Lv) in T by lia. rewrite <- Hlen, <- Lv, firstn_all, !v_nth, x_0 in T by lia.
  pose proof (cells 0 M 0 M 0 (1/2) (1/2) 0 ltac:(lia) ltac:(lia) ltac:(lia) ltac:(lia) ltac:(lia) ltac:(lra)) as C.
  rewrite (Rabs_pos_eq (1/2)), Rabs_R0, x_0 in C by lra. set (I := RInt g lo (x M)) in *. set (W := V (x M) - V lo) in *. set (A := Rsum v) in *.
  replace (x M - lo) with (INR M * s) in C by (unfold x; ring). set (h := (g lo + g (x M)) / 2) in *.
  replace (1 / 2 * g lo + 1 / 2 * g (x M) + 0 * g lo) with h in C by (unfold h; field).
  assert (C' : Rabs (I / (INR M * s) - h) <= W).
  { apply (Rmult_le_reg_l (INR M * s)); [nra|]. rewrite <- (Rabs_pos_eq (INR M * s)) at 1 by nra. rewrite <- Rabs_mult.
    replace (INR M * s * (I / (INR M * s) - h)) with (I - INR M * s * h) by (field; split; lra). lra. }
  assert (T' : Rabs (I / s - (A - h)) <= W).
  { apply (Rmult_le_reg_l s); [exact Hs|]. rewrite <- (Rabs_pos_eq s) at 1 by lra. rewrite <- Rabs_mult. replace (s * (I / s - (A - h))) with (I - s * (A - h)) by (field; lra). exact T. }
  replace (I / (INR M * s) - A / INR (S M)) with (((I / s - (A - h)) + (I / (INR M * s) - h)) / INR (S M)) by (rewrite S_INR; field; repeat split; try lra; rewrite S_INR in HS; lra).
  unfold Rdiv at 1. rewrite Rabs_mult, (Rabs_pos_eq (/ INR (S M))) by (left; now apply Rinv_0_lt_compat). apply Rmult_le_compat_r; [left; now apply Rinv_0_lt_compat|].
  eapply Rle_trans; [apply Rabs_triang|]. lra.
Qed.
End Rules.
