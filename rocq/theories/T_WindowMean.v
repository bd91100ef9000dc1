(** Property C119: the expected number of levels in a random window. *)
From Coq Require Import List ZArith Bool Arith Lia Reals Lra Sorting.Permutation.
From Coquelicot Require Import Coquelicot.
From Verif Require Import Base S_Order S_EigVals S_Trim S_Loops M_Step M_Loops P_Order P_EigVals P_Ols P_Loops P_TrimFull.
Import ListNotations.
Local Open Scope R_scope.
Local Notation length := List.length.

(** Length of the part of [x - L/2, x + L/2] inside [lo, hi], for x in [lo, hi]: the centres whose window of length L holds x. *)
Definition Reach (lo hi L x : R) : R := Rmin hi (x + L / 2) - Rmax lo (x - L / 2).

Lemma indicator_RInt (f : R -> R) a b : 0 <= a -> a <= b -> b <= 1 -> (forall t, 0 < t < a -> f t = 0) -> (forall t, a < t < b -> f t = 1) ->
  (forall t, b < t < 1 -> f t = 0) -> is_RInt f 0 1 (b - a).
Proof.
  intros Ha Hab Hb H1 H2 H3.
  assert (is_RInt f 0 a 0) as I1.
  { apply (is_RInt_ext (fun _ => 0)); [intros t Ht; rewrite Rmin_left, Rmax_right in Ht by lra; symmetry; now apply H1|].
    assert (scal (a - 0) 0 = 0) as E0 by (unfold scal; cbn; unfold mult; cbn; ring). rewrite <- E0 at 2. apply (is_RInt_const (V := R_NormedModule)). }
  assert (is_RInt f a b (b - a)) as I2.
  { apply (is_RInt_ext (fun _ => 1)); [intros t Ht; rewrite Rmin_left, Rmax_right in Ht by lra; symmetry; now apply H2|].
    replace (b - a) with (scal (b - a) 1) by (unfold scal; cbn; unfold mult; cbn; ring). apply (is_RInt_const (V := R_NormedModule)). }
  assert (is_RInt f b 1 0) as I3.
  { apply (is_RInt_ext (fun _ => 0)); [intros t Ht; rewrite Rmin_left, Rmax_right in Ht by lra; symmetry; now apply H3|].
    assert (scal (1 - b) 0 = 0) as E0 by (unfold scal; cbn; unfold mult; cbn; ring). pose proof (is_RInt_const (V := R_NormedModule) b 1 0) as I. change (is_RInt (fun _ : R => 0) b 1 (scal (1 - b) 0)) in I. rewrite E0 in I. exact I. }
  replace (b - a) with (plus (plus 0 (b - a)) 0) by (unfold plus; cbn; ring).
  apply (is_RInt_Chasles f 0 b 1); [apply (is_RInt_Chasles f 0 a b)|]; assumption.
Qed.

Lemma one_level lo hi L x : lo < hi -> 0 <= L -> lo <= x <= hi ->
  is_RInt (fun t => INR (CountIn [x] (lo + (hi - lo) * t - L / 2) (lo + (hi - lo) * t + L / 2))) 0 1 (Reach lo hi L x / (hi - lo)).
Proof.
  intros Hlh HL Hx. set (w := hi - lo). assert (0 < w) as Hw by (unfold w; lra).
  set (A := Rmax lo (x - L / 2)). set (B := Rmin hi (x + L / 2)).
  assert (lo <= A <= x) as HA by (unfold A; split; [apply Rmax_l|apply Rmax_lub; lra]). assert (x <= B <= hi) as HB by (unfold B; split; [apply Rmin_glb; lra|apply Rmin_l]).
  assert (x - L / 2 <= A) by apply Rmax_r. assert (B <= x + L / 2) by apply Rmin_r.
  assert (forall y t, (y - lo) / w < t -> y < lo + w * t) as C1. { intros y t H1. apply (Rmult_lt_compat_l w) in H1; [|exact Hw]. replace (w * ((y - lo) / w)) with (y - lo) in H1 by (field; lra). lra. }
  assert (forall y t, t < (y - lo) / w -> lo + w * t < y) as C2. { intros y t H1. apply (Rmult_lt_compat_l w) in H1; [|exact Hw]. replace (w * ((y - lo) / w)) with (y - lo) in H1 by (field; lra). lra. }
  unfold Reach. fold A B. replace ((B - A) / w) with ((B - lo) / w - (A - lo) / w) by (field; lra).
  apply indicator_RInt.
  - apply Rmult_le_pos; [lra|]. left. now apply Rinv_0_lt_compat.
  - apply Rmult_le_compat_r; [left; now apply Rinv_0_lt_compat|lra].
  - apply (Rmult_le_reg_r w); [exact Hw|]. unfold Rdiv. rewrite Rmult_assoc, Rinv_l by lra. unfold w. lra.
  - intros t [T0 T]. apply C2 in T. cbn [CountIn]. destruct (Rle_dec _ x); [|reflexivity]. destruct (Rle_dec x _); [|reflexivity]. exfalso.
    assert (lo <= lo + w * t) by nra. unfold A in T. apply Rmax_case_strong with (r1 := lo) (r2 := x - L / 2) (P := fun v => lo + w * t < v -> False) in T; [exact T| |]; intros; lra.
  - intros t [T1 T2]. apply C1 in T1. apply C2 in T2. cbn [CountIn]. destruct (Rle_dec _ x); [|lra]. destruct (Rle_dec x _); [|lra]. reflexivity.
  - intros t [T T0]. apply C1 in T. cbn [CountIn]. destruct (Rle_dec _ x); [|reflexivity]. destruct (Rle_dec x _); [|reflexivity]. exfalso.
    assert (lo + w * t <= hi) by (unfold w in *; nra). unfold B in T. apply Rmin_case_strong with (r1 := hi) (r2 := x + L / 2) (P := fun v => v < lo + w * t -> False) in T; [exact T| |]; intros; lra.
Qed.

(** C119. The mean over all window centres of the number of levels [sigma_L] counts: every level is counted by the centres within L/2 of
    it that lie inside the spectrum. *)
Theorem C119_mean : forall (u : list R) lo hi L, IsMin u lo -> IsMax u hi -> lo < hi -> 0 <= L ->
  is_RInt (fun t => IZR (n_within u L (uniform lo hi t))) 0 1 (Rsum (map (fun x => Reach lo hi L x) u) / (hi - lo)).
Proof.
  intros u lo hi L [_ Hlo] [_ Hhi] Hlh HL.
  apply (is_RInt_ext (fun t => INR (CountIn u (lo + (hi - lo) * t - L / 2) (lo + (hi - lo) * t + L / 2)))).
  { intros t _. rewrite n_within_R, <- INR_IZR_INZ. reflexivity. }
  induction u as [|x u IH].
  - cbn. replace (0 / (hi - lo)) with (scal (1 - 0) 0) by (unfold scal; cbn; unfold mult; cbn; field; lra). apply (is_RInt_const (V := R_NormedModule)).
  - inversion Hlo; subst. inversion Hhi; subst. cbn [map]. rewrite Rsum_cons.
    apply (is_RInt_ext (fun t => plus (INR (CountIn [x] (lo + (hi - lo) * t - L / 2) (lo + (hi - lo) * t + L / 2))) (INR (CountIn u (lo + (hi - lo) * t - L / 2) (lo + (hi - lo) * t + L / 2))))).
    { intros t _. unfold plus. cbn [AbelianGroup.plus]. cbn -[CountIn INR]. rewrite <- plus_INR. f_equal. cbn [CountIn]. lia. }
    replace ((Reach lo hi L x + _) / (hi - lo)) with (plus (Reach lo hi L x / (hi - lo)) (Rsum (map (fun x => Reach lo hi L x) u) / (hi - lo))) by (unfold plus; cbn; field; lra).
    apply (is_RInt_plus (V := R_NormedModule)); [apply one_level; auto|apply IH; assumption].
Qed.
Print Assumptions C119_mean.

(** The mean is at most L divided by the mean spacing; it is equal to it exactly when no window centred on a level other than the first
    and the last overruns the spectrum. *)
Theorem C119_bias : forall (u rest : list R) lo hi L, IsMin u lo -> IsMax u hi -> lo < hi -> 0 < L -> Permutation u (lo :: hi :: rest) ->
  let mean := RInt (fun t => IZR (n_within u L (uniform lo hi t))) 0 1 in
  let spacing := (hi - lo) / INR (length u - 1) in
  mean <= L / spacing /\
  (mean = L / spacing <-> L / 2 <= hi - lo /\ List.Forall (fun x => lo + L / 2 <= x <= hi - L / 2) rest).
Proof.
  intros u rest lo hi L Hlo Hhi Hlh HL Hp mean spacing. assert (0 < hi - lo) as Hw by lra.
  assert (mean = Rsum (map (fun x => Reach lo hi L x) u) / (hi - lo)) as -> by (apply is_RInt_unique, C119_mean; auto; lra).
  assert (Rsum (map (fun x => Reach lo hi L x) u) = Reach lo hi L lo + (Reach lo hi L hi + Rsum (map (fun x => Reach lo hi L x) rest))) as ->.
  { rewrite <- !Rsum_cons. change (Reach lo hi L lo :: Reach lo hi L hi :: map (fun x => Reach lo hi L x) rest) with (map (fun x => Reach lo hi L x) (lo :: hi :: rest)).
    apply Rsum_perm. now apply Permutation_map. }
  assert (length u - 1 = S (length rest))%nat as En by (rewrite (Permutation_length Hp); cbn; lia).
  assert (List.Forall (fun x => lo <= x <= hi) rest) as HR.
  { apply Forall_forall. intros x Hx. destruct Hlo as [_ Hlo]. destruct Hhi as [_ Hhi]. rewrite Forall_forall in Hlo, Hhi.
    assert (In x u) as Hi by (apply (Permutation_in x (Permutation_sym Hp)); right; now right). split; [now apply Hlo|now apply Hhi]. }
  assert (L / spacing = (L + INR (length rest) * L) / (hi - lo)) as ->.
  { unfold spacing. rewrite En, S_INR. pose proof (pos_INR (length rest)). field. split; lra. }
  assert (Reach lo hi L lo = Rmin hi (lo + L / 2) - lo) as E1 by (unfold Reach; rewrite (Rmax_left lo) by lra; reflexivity).
  assert (Reach lo hi L hi = hi - Rmax lo (hi - L / 2)) as E2 by (unfold Reach; rewrite (Rmin_left hi) by lra; reflexivity).
  assert (Reach lo hi L lo + Reach lo hi L hi <= L /\ (Reach lo hi L lo + Reach lo hi L hi = L <-> L / 2 <= hi - lo)) as [K1 K2].
  { rewrite E1, E2. unfold Rmin, Rmax. destruct (Rle_dec _ _), (Rle_dec _ _); repeat split; lra. }
  assert (Rsum (map (fun x => Reach lo hi L x) rest) <= INR (length rest) * L /\
    (Rsum (map (fun x => Reach lo hi L x) rest) = INR (length rest) * L <-> List.Forall (fun x => lo + L / 2 <= x <= hi - L / 2) rest)) as [K3 K4].
  { clear -HR HL Hlh. induction rest as [|x rest IH]; [cbn; split; [lra|split; [constructor|lra]]|]. inversion HR; subst. destruct (IH ltac:(assumption)) as [I1 I2].
    cbn [map length]. rewrite Rsum_cons, S_INR.
    assert (Reach lo hi L x <= L /\ (Reach lo hi L x = L <-> lo + L / 2 <= x <= hi - L / 2)) as [J1 J2].
    { unfold Reach, Rmin, Rmax. destruct (Rle_dec _ _), (Rle_dec _ _); repeat split; lra. }
    split; [lra|]. split.
    - intro E. assert (Reach lo hi L x = L) as Ex by lra. constructor; [now apply J2|]. apply I2. lra.
    - intro F. inversion F; subst. assert (Reach lo hi L x = L) by now apply J2. assert (Rsum (map (fun x => Reach lo hi L x) rest) = INR (length rest) * L) by now apply I2. lra. }
  rewrite <- Rplus_assoc. split.
  - apply Rmult_le_compat_r; [left; now apply Rinv_0_lt_compat|lra].
  - split.
    + intro E. apply (Rmult_eq_compat_r (hi - lo)) in E. unfold Rdiv in E. rewrite !Rmult_assoc, Rinv_l, !Rmult_1_r in E by lra. split; [apply K2; lra|apply K4; lra].
    + intros [F1 F2]. apply K2 in F1. apply K4 in F2. rewrite F1, F2. reflexivity.
Qed.
Print Assumptions C119_bias.

(** Levels 0, 1, 2, 3, 4: windows of length 1 hold one level on average, windows of length 3 fewer than three. *)
Example C119_case : RInt (fun t => IZR (n_within [0; 1; 2; 3; 4] 1 (uniform 0 4 t))) 0 1 = 1 /\
  RInt (fun t => IZR (n_within [0; 1; 2; 3; 4] 3 (uniform 0 4 t))) 0 1 = 11 / 4.
Proof.
  assert (IsMin [0; 1; 2; 3; 4] 0) as M1 by (split; [now left|repeat constructor; lra]).
  assert (IsMax [0; 1; 2; 3; 4] 4) as M2 by (split; [do 4 right; now left|repeat constructor; lra]).
  split; (etransitivity; [apply is_RInt_unique, C119_mean; [exact M1|exact M2|lra|lra]|]); unfold Reach; cbn [map Rsum];
    repeat (first [rewrite Rmin_left by lra|rewrite Rmin_right by lra|rewrite Rmax_left by lra|rewrite Rmax_right by lra]); unfold Rsum; cbn [fold_right]; lra.
Qed.

(** It is false that windows of length L hold L levels on average in an unfolded spectrum: on a ladder of unit spacing every L above 2 falls short. *)
Theorem C119_edge_refuted : forall (n : nat) (L : R), (2 <= n)%nat -> 2 < L ->
  let u := map INR (seq 0 (S n)) in
  IsMin u 0 /\ IsMax u (INR n) /\ RInt (fun t => IZR (n_within u L (uniform 0 (INR n) t))) 0 1 < L.
Proof.
  intros n L Hn HL u.
  assert (IsMin u 0) as M1. { split; [now left|]. apply Forall_forall. intros x Hx. apply in_map_iff in Hx. destruct Hx as (k & <- & _). apply pos_INR. }
  assert (IsMax u (INR n)) as M2.
  { split; [apply in_map, in_seq; lia|]. apply Forall_forall. intros x Hx. apply in_map_iff in Hx. destruct Hx as (k & <- & Hk). apply in_seq in Hk. apply le_INR. lia. }
  split; [exact M1|]. split; [exact M2|]. assert (2 <= INR n) as Hn2 by (apply (le_INR 2 n) in Hn; cbn in Hn; lra).
  destruct n as [|n]; [lia|].
  assert (Permutation u (0 :: INR (S n) :: map INR (seq 1 n))) as Hp.
  { unfold u. change (seq 0 (S (S n))) with (0%nat :: seq 1 (S n)). rewrite seq_S, map_cons, map_app. cbn [INR map Nat.add]. constructor. apply Permutation_sym, Permutation_cons_append. }
  destruct (C119_bias u _ 0 (INR (S n)) L M1 M2 ltac:(lra) ltac:(lra) Hp) as [B1 B2].
  assert (L / ((INR (S n) - 0) / INR (length u - 1)) = L) as EL.
  { unfold u. rewrite map_length, seq_length. replace (S (S n) - 1)%nat with (S n) by lia. field. lra. }
  rewrite EL in B1, B2. destruct (Rle_lt_or_eq_dec _ _ B1) as [H|H]; [exact H|exfalso]. apply B2 in H. destruct H as [_ H]. rewrite Forall_forall in H.
  specialize (H 1). destruct H as [H _]; [|lra]. change 1 with (INR 1) at 1. apply in_map, in_seq. lia.
Qed.
Print Assumptions C119_edge_refuted.
(** Five levels and windows of length 3. *)
Example C119_edge_case : RInt (fun t => IZR (n_within [0; 1; 2; 3; 4] 3 (uniform 0 4 t))) 0 1 < 3.
Proof.
  destruct (C119_edge_refuted 4 3 ltac:(lia) ltac:(lra)) as (_ & _ & H).
  replace (map INR (seq 0 5)) with [0; 1; 2; 3; 4] in H by (cbn; repeat f_equal; ring). replace (INR 4) with 4 in H by (cbn; ring). exact H.
Qed.
