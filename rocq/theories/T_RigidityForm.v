(** Property C130: the exact rigidity in closed form, and its value for evenly spaced levels. *)
From Coq Require Import List ZArith Bool Arith Lia Reals Lra.
From Coquelicot Require Import Coquelicot.
From Verif Require Import Base S_Order S_EigVals S_Trim M_Step M_Quad S_Rigidity S_RigidityForm P_Order P_Step P_EigVals P_TrimStat P_Quad P_Ols P_Loops P_RigidityFit P_RigidityForm T_Invariance T_Rigidity T_RigidityLimit.
Import ListNotations.
Local Open Scope R_scope.
Local Notation length := List.length.

(** C130. The exact rigidity of a window depends on the levels only through the share of the window above each of them; it is a sum over pairs of levels. *)
Theorem C130_closed_form : forall (u : list R) c L e, 0 < L -> (ExactRigidity u c L e <-> e = RigidityForm (map (Share c L) u)).
Proof.
  intros u c L e HL. pose proof (exact_form u c L HL) as H. split; [|intros ->; exact H]. intros He. rewrite (exact_unique u c L HL e He). symmetry. now apply exact_unique.
Qed.
Print Assumptions C130_closed_form.

(** ** Levels outside the window do not count *)
Lemma pair_sym a b : PairTerm a b = PairTerm b a.
Proof. unfold PairTerm. rewrite Rmin_comm. ring. Qed.
Lemma pair_end a b : a = 0 \/ a = 1 -> 0 <= b <= 1 -> PairTerm a b = 0.
Proof. intros [-> | ->] H; unfold PairTerm; [rewrite Rmin_left by lra|rewrite Rmin_right by lra]; ring. Qed.
Lemma Rsum_zero (A : Type) (f : A -> R) l : (forall a, In a l -> f a = 0) -> Rsum (map f l) = 0.
Proof. induction l as [|a l IH]; intros H; [reflexivity|]. cbn [map]. rewrite Rsum_cons, (H a (or_introl eq_refl)), IH by (intros; apply H; now right). ring. Qed.
Lemma Rsum_ext_in (A : Type) (f g : A -> R) l : (forall a, In a l -> f a = g a) -> Rsum (map f l) = Rsum (map g l).
Proof. intros H. f_equal. apply map_ext_in. exact H. Qed.
Lemma form_ends (w v w' : list R) : (forall a, In a (w ++ v ++ w') -> 0 <= a <= 1) -> (forall a, In a w -> a = 0 \/ a = 1) -> (forall a, In a w' -> a = 0 \/ a = 1) ->
  RigidityForm (w ++ v ++ w') = RigidityForm v.
Proof.
  intros H Hw Hw'. unfold RigidityForm. set (all := w ++ v ++ w') in *.
  assert (R1 : forall a, In a all -> Rsum (map (PairTerm a) all) = Rsum (map (PairTerm a) v)).
  { intros a Ha. unfold all. rewrite !map_app, !Rsum_app, (Rsum_zero _ _ w), (Rsum_zero _ _ w'); [ring| |]; intros b Hb; rewrite pair_sym; apply pair_end; auto. }
  assert (Z : forall a, a = 0 \/ a = 1 -> Rsum (map (PairTerm a) v) = 0).
  { intros a Ha. apply Rsum_zero. intros b Hb. apply pair_end; [exact Ha|]. apply H. apply in_or_app. right. apply in_or_app. now left. }
  rewrite (Rsum_ext_in _ _ (fun a => Rsum (map (PairTerm a) v)) all R1). unfold all. rewrite !map_app, !Rsum_app, (Rsum_zero _ _ w), (Rsum_zero _ _ w'); auto. ring.
Qed.
Lemma share_bounds c L e : 0 <= Share c L e <= 1.
Proof. unfold Share, Rmax, Rmin. repeat destruct (Rle_dec _ _); lra. Qed.

(** ** A descending list of shares *)
Lemma min_sum (f : nat -> R) n : (forall i j, (i <= j)%nat -> (j < n)%nat -> f j <= f i) ->
  Rsum (map (fun i => Rsum (map (fun j => Rmin (f i) (f j)) (seq 0 n))) (seq 0 n)) = Rsum (map (fun i => (2 * INR i + 1) * f i) (seq 0 n)).
Proof.
  induction n as [|n IH]; intros H; [reflexivity|]. rewrite seq_S, !map_app, !Rsum_app, <- IH by (intros; apply H; lia). cbn [map plus].
  rewrite !Rsum_cons. change (Rsum []) with 0.
  assert (E : forall i, (i <= n)%nat -> Rsum (map (fun j => Rmin (f i) (f j)) (seq 0 n ++ [n])) = Rsum (map (fun j => Rmin (f i) (f j)) (seq 0 n)) + f n).
  { intros i Hi. rewrite map_app, Rsum_app. cbn [map]. rewrite Rsum_cons. change (Rsum []) with 0. rewrite Rmin_right by (apply H; lia). ring. }
  rewrite (Rsum_ext_in _ _ (fun i => Rsum (map (fun j => Rmin (f i) (f j)) (seq 0 n)) + f n)) by (intros i Hi; apply in_seq in Hi; apply E; lia).
  rewrite E by lia. rewrite (Rsum_ext_in _ (fun j => Rmin (f n) (f j)) (fun _ => f n)) by (intros j Hj; apply in_seq in Hj; apply Rmin_left, H; lia).
  assert (S1 : forall (g : nat -> R) k l, Rsum (map (fun i => g i + k) l) = Rsum (map g l) + INR (length l) * k) by (intros g k l; induction l as [|a l IHl]; [cbn; ring|]; cbn [map length]; rewrite !Rsum_cons, IHl, S_INR; ring).
  assert (S2 : forall k (l : list nat), Rsum (map (fun _ => k) l) = INR (length l) * k) by (intros k l; induction l as [|a l IHl]; [cbn; ring|]; cbn [map length]; rewrite !Rsum_cons, IHl, S_INR; ring).
  rewrite S1, S2, seq_length, Nat.add_0_l. ring.
Qed.
Lemma seq_from K m : seq K m = map (fun j => (K + j)%nat) (seq 0 m).
Proof. induction m as [|m IH]; [reflexivity|]. rewrite !seq_S, map_app, IH. reflexivity. Qed.
Lemma form_even m p : (1 <= m)%nat -> 0 <= p <= 1 ->
  RigidityForm (map (fun j => 1 - (p + INR j) / INR m) (seq 0 m)) = 1 / 12 - 12 * (1 / 12 - p * (1 - p) / 2) ^ 2 / INR m ^ 2.
Proof.
  intros Hm Hp. assert (Pm : 0 < INR m) by (apply lt_0_INR; lia). set (M := INR m) in *. set (f := fun j => 1 - (p + INR j) / M). rewrite form_split, !map_map.
  rewrite (map_ext _ (fun i => Rsum (map (fun j => Rmin (f i) (f j)) (seq 0 m)))) by (intro i; f_equal; now rewrite map_map).
  rewrite min_sum.
  2:{ intros i j Hij _. unfold f. apply le_INR in Hij. apply Rplus_le_compat_l, Ropp_le_contravar, Rmult_le_compat_r; [left; now apply Rinv_0_lt_compat|lra]. }
  assert (SQ : forall a b d, Rsum (map (fun i => a * (INR i * INR i) + b * INR i + d) (seq 0 m)) = a * (M * (M - 1) * (2 * M - 1) / 6) + b * (M * (M - 1) / 2) + M * d) by (intros; apply sum_quad).
  rewrite (Rsum_map_ext _ (fun i => (2 * INR i + 1) * f i) (fun i => - 2 / M * (INR i * INR i) + (2 * (1 - p / M) - 1 / M) * INR i + (1 - p / M))) by (intro i; unfold f; field; lra).
  rewrite (Rsum_map_ext _ f (fun i => 0 * (INR i * INR i) + - / M * INR i + (1 - p / M))) by (intro i; unfold f; field; lra).
  rewrite (Rsum_map_ext _ (fun i => f i * (1 - f i)) (fun i => - / (M * M) * (INR i * INR i) + (/ M - 2 * p / (M * M)) * INR i + (1 - p / M) * (p / M))) by (intro i; unfold f; field; lra).
  rewrite !SQ. field. lra.
Qed.

(** C130. Levels one apart and a window of whole length m that overruns neither end by a spacing or more: the rigidity is 1/12 less a term of order 1/m^2
    that depends only on where the window begins between two levels. *)
Theorem C130_evenly_spaced : forall a N c m, (1 <= m)%nat -> a - 1 < c - INR m / 2 -> c + INR m / 2 <= a + INR N ->
  exists K p, a + INR K = c - INR m / 2 + p /\ 0 <= p < 1 /\
    ExactRigidity (Fence a N) c (INR m) (1 / 12 - 12 * (1 / 12 - p * (1 - p) / 2) ^ 2 / INR m ^ 2) /\
    1 / 12 - 1 / (12 * INR m ^ 2) <= 1 / 12 - 12 * (1 / 12 - p * (1 - p) / 2) ^ 2 / INR m ^ 2 <= 1 / 12.
Proof.
  intros a N c m Hm Hlo Hhi. assert (Pm : 0 < INR m) by (apply lt_0_INR; lia). set (M := INR m) in *.
  set (K := Z.to_nat (- Int_part (a - (c - M / 2)))). set (p := a + INR K - (c - M / 2)).
  assert (Hp : 0 <= p < 1).
  { destruct (base_Int_part (a - (c - M / 2))) as (B1 & B2). assert (Z : (- Int_part (a - (c - M / 2)) >= 0)%Z). { assert (IZR (Int_part (a - (c - M / 2))) < 1) by lra. apply lt_IZR in H. lia. }
    unfold p, K. rewrite INR_IZR_INZ, Z2Nat.id, opp_IZR by lia. lra. }
  assert (HK : (K + m <= N)%nat). { apply INR_le. apply Rnot_lt_le. intros G. apply INR_lt in G. assert (N + 1 <= K + m)%nat by lia. apply le_INR in H. rewrite !plus_INR in H. fold M in H. cbn in H. unfold p in Hp. lra. }
  exists K, p. split; [unfold p; ring|]. split; [exact Hp|]. split.
  - apply C130_closed_form; [exact Pm|]. pose proof (form_even m p Hm ltac:(lra)) as FE. fold M in FE. rewrite <- FE. clear FE. unfold Fence. replace N with (K + (m + (N - K - m)))%nat by lia. rewrite !seq_app, !map_app, !map_map, Nat.add_0_l.
    assert (S0 : forall i : nat, Share c M (a + INR i) = Rmax 0 (Rmin 1 (1 - (p + INR i - INR K) / M))). { intro i. unfold Share. do 2 f_equal. unfold p. field. lra. }
    assert (Q : forall x, 0 <= x -> 0 <= x / M) by (intros x Hx; apply Rmult_le_pos; [exact Hx|left; now apply Rinv_0_lt_compat]).
    assert (Q' : forall x, x <= M -> x / M <= 1) by (intros x Hx; apply (Rmult_le_reg_r M); [exact Pm|]; unfold Rdiv; rewrite Rmult_assoc, Rinv_l by lra; lra).
    assert (Q3 : forall x, M <= x -> 1 <= x / M) by (intros x Hx; apply (Rmult_le_reg_r M); [exact Pm|]; unfold Rdiv; rewrite Rmult_assoc, Rinv_l by lra; lra).
    assert (Q4 : forall x, x <= 0 -> x / M <= 0) by (intros x Hx; specialize (Q (- x) ltac:(lra)); unfold Rdiv in *; lra).
    replace (map (fun j => 1 - (p + INR j) / M) (seq 0 m)) with (map (fun i => Share c M (a + INR i)) (seq K m)).
    + symmetry. apply form_ends; intros x Hx.
      * rewrite !in_app_iff, !in_map_iff in Hx. destruct Hx as [(i & <- & _)|[(i & <- & _)|(i & <- & _)]]; apply share_bounds.
      * apply in_map_iff in Hx as (i & <- & Hi). apply in_seq in Hi. right. rewrite S0. assert (INR i + 1 <= INR K) by (replace (INR i + 1) with (INR (S i)) by apply S_INR; apply le_INR; lia).
        specialize (Q4 (p + INR i - INR K) ltac:(lra)). rewrite Rmin_left by lra. apply Rmax_right. lra.
      * apply in_map_iff in Hx as (i & <- & Hi). apply in_seq in Hi. left. rewrite S0. assert (INR K + M <= INR i) by (unfold M; rewrite <- plus_INR; apply le_INR; lia).
        specialize (Q3 (p + INR i - INR K) ltac:(lra)). rewrite Rmin_right by lra. apply Rmax_left. lra.
    + rewrite (seq_from K m).
      rewrite map_map. apply map_ext_in. intros j Hj. apply in_seq in Hj. rewrite S0, plus_INR. replace (p + (INR K + INR j) - INR K) with (p + INR j) by ring. pose proof (pos_INR j).
      assert (INR j + 1 <= M) by (replace (INR j + 1) with (INR (S j)) by apply S_INR; apply le_INR; lia).
      pose proof (Q (p + INR j) ltac:(lra)). pose proof (Q' (p + INR j) ltac:(lra)). rewrite Rmin_right by lra. apply Rmax_right. lra.
  - set (q := 1 / 12 - p * (1 - p) / 2). assert (Hq : - / 24 <= q <= 1 / 12) by (unfold q; pose proof (pow2_ge_0 (p - 1 / 2)); nra).
    assert (P2 : 0 < M ^ 2) by now apply pow_lt. assert (Hq2 : 0 <= q ^ 2 <= 1 / 144) by (split; [apply pow2_ge_0|]; pose proof (Rmult_le_pos (1 / 12 - q) (q + / 24) ltac:(lra) ltac:(lra)); lra).
    assert (PI : 0 < / M ^ 2) by now apply Rinv_0_lt_compat. replace (1 / (12 * M ^ 2)) with (1 / 12 * / M ^ 2) by (field; lra). unfold Rdiv at 3 6.
    pose proof (Rmult_le_compat_r (/ M ^ 2) (12 * q ^ 2) (1 / 12) ltac:(lra) ltac:(lra)). pose proof (Rmult_le_pos (12 * q ^ 2) (/ M ^ 2) ltac:(lra) ltac:(lra)).
    lra.
Qed.
Print Assumptions C130_evenly_spaced.

(** C130. So with a fine grid the program's value for such a window is near 1/12, for either quadrature rule. *)
Theorem C130_sampled : forall simpson n a N c m, (3 <= n)%nat -> (1 <= m)%nat -> a < c - INR m / 2 -> c + INR m / 2 <= a + (INR N - 1) ->
  exists d, d3_sample simpson n (INR m) (Fence a N) c = Done d /\
    1 / 12 - 1 / (12 * INR m ^ 2) - 160 * INR m ^ 2 / (INR n - 1) <= d <= 1 / 12 + 160 * INR m ^ 2 / (INR n - 1).
Proof.
  intros simpson n a N c m Hn Hm Hlo Hhi. assert (Pm : 0 < INR m) by (apply lt_0_INR; lia).
  destruct (C130_evenly_spaced a N c m Hm ltac:(lra) ltac:(lra)) as (K & p & _ & _ & HE & HB). set (e := 1 / 12 - 12 * (1 / 12 - p * (1 - p) / 2) ^ 2 / INR m ^ 2) in *.
  assert (HN : (1 <= N)%nat). { destruct N; [|lia]. cbn in Hhi. lra. }
  assert (Hh : head_opt (Fence a N) = Some a). { destruct N; [lia|]. cbn. f_equal. lra. }
  assert (Hs : Ascending (Fence a N)).
  { apply StronglySorted_R. unfold Fence. generalize 0%nat. clear. induction N as [|k IH]; intros s; cbn [seq map]; constructor; [apply IH|].
    apply List.Forall_forall. intros x Hx. apply in_map_iff in Hx as (i & <- & Hi). apply in_seq in Hi. assert (INR s <= INR i) by (apply le_INR; lia). lra. }
  destruct (C127_rate simpson n (INR m) (Fence a N) c a e Pm Hn Hs Hh ltac:(lra) HE) as (d & Ed & B). exists d. split; [exact Ed|].
  pose proof (fence_le a N (c + INR m / 2) ltac:(lra) ltac:(lra)) as F1. pose proof (fence_le a N (c - INR m / 2) ltac:(lra) ltac:(lra)) as F2.
  assert (EN : (CountLe (Fence a N) (c + INR m / 2)%R - CountLe (Fence a N) (c - INR m / 2)%R = Z.of_nat m)%Z).
  { set (z1 := CountLe (Fence a N) (c + INR m / 2)) in *. set (z2 := CountLe (Fence a N) (c - INR m / 2)) in *.
    assert (A1 : IZR (z1 - z2 - Z.of_nat m) < 1) by (rewrite !minus_IZR, <- INR_IZR_INZ; lra). assert (A2 : -1 < IZR (z1 - z2 - Z.of_nat m)) by (rewrite !minus_IZR, <- INR_IZR_INZ; lra).
    apply lt_IZR in A1. apply (lt_IZR (-1)) in A2. lia. }
  rewrite EN, <- INR_IZR_INZ in B. apply Rabs_le_between in B. lra.
Qed.
Print Assumptions C130_sampled.

(** Levels 0, 1, ..., 9 and the window [2.5, 5.5]: the rigidity is 1/12 - 1/432. *)
Example C130_case : ExactRigidity (Fence 0 10) 4 (INR 3) (1 / 12 - 1 / 432) /\ ExactRigidity [0] 0 2 (1 / 16).
Proof.
  split.
  - destruct (C130_evenly_spaced 0 10 4 3) as (K & p & E & Hp & H & _); [lia|cbn; lra|cbn; lra|]. assert (p = 1 / 2) as ->.
    { cbn [INR] in E. assert (IZR (2 * Z.of_nat K) < 7) by (rewrite mult_IZR, <- INR_IZR_INZ; lra). assert (5 <= IZR (2 * Z.of_nat K)) by (rewrite mult_IZR, <- INR_IZR_INZ; lra).
      apply lt_IZR in H0. apply le_IZR in H1. assert (K = 3%nat) as -> by lia. cbn [INR] in E. lra. }
    replace (1 / 12 - 1 / 432) with (1 / 12 - 12 * (1 / 12 - 1 / 2 * (1 - 1 / 2) / 2) ^ 2 / INR 3 ^ 2); [exact H|]. cbn [INR]. field.
  - apply C130_closed_form; [lra|]. unfold RigidityForm, PairTerm, Share. cbn [map]. rewrite !Rsum_cons. change (Rsum []) with 0.
    rewrite (Rmin_right 1), Rmax_right by (try rewrite Rmin_right; lra). rewrite Rmin_left by lra. lra.
Qed.
