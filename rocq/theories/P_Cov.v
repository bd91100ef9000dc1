(** Proofs about the covariance and correlation arrays. *)
From Coq Require Import List ZArith Bool Arith Lia Reals Lra.
From Verif Require Import Base S_Cov M_EigVals M_Series M_Cov P_Order.
Import ListNotations.
Local Open Scope R_scope.

Lemma Sum_ext f g n : (forall k, (k < n)%nat -> f k = g k) -> Sum f n = Sum g n.
Proof. induction n as [|n IH]; intro H; cbn; [reflexivity|]. rewrite IH by (intros; apply H; lia). rewrite H by lia. reflexivity. Qed.
Lemma Sum_scal c f n : Sum (fun k => c * f k) n = c * Sum f n.
Proof. induction n as [|n IH]; cbn; [ring|]. rewrite IH. ring. Qed.
Lemma Sum_plus f g n : Sum (fun k => f k + g k) n = Sum f n + Sum g n.
Proof. induction n as [|n IH]; cbn; [ring|]. rewrite IH. ring. Qed.
Lemma Sum_nonneg f n : (forall k, (k < n)%nat -> 0 <= f k) -> 0 <= Sum f n.
Proof. induction n as [|n IH]; intro H; cbn; [lra|]. pose proof (H n ltac:(lia)). assert (0 <= Sum f n) by (apply IH; intros; apply H; lia). lra. Qed.
Lemma Sum_pos f n k : (forall k, (k < n)%nat -> 0 <= f k) -> (k < n)%nat -> 0 < f k -> 0 < Sum f n.
Proof.
  induction n as [|n IH]; intros H Hk Hp; [lia|]. cbn. pose proof (H n ltac:(lia)).
  destruct (Nat.eq_dec k n) as [->|Hne].
  - assert (0 <= Sum f n) by (apply Sum_nonneg; intros; apply H; lia). lra.
  - assert (0 < Sum f n) by (apply IH; [intros; apply H; lia|lia|exact Hp]). lra.
Qed.
Lemma fold_total (l : list R) : forall a, fold_left Rplus l a = a + fold_left Rplus l 0.
Proof. induction l as [|x l IH]; intro a; cbn; [ring|]. rewrite IH, (IH (0 + x)). ring. Qed.
Lemma total_app (l m : list R) : total (l ++ m) = total l + total m.
Proof. unfold total. rewrite fold_left_app. cbn. apply fold_total. Qed.
Lemma total_map (f : nat -> R) n : total (map f (seq 0 n)) = Sum f n.
Proof. induction n as [|n IH]; [reflexivity|]. rewrite seq_S, map_app, total_app, IH. cbn. unfold total. cbn. ring. Qed.
Lemma combine_map {A B C} (f : A -> B) (g : A -> C) l : combine (map f l) (map g l) = map (fun a => (f a, g a)) l.
Proof. induction l as [|a l IH]; cbn; [reflexivity|]. rewrite IH. reflexivity. Qed.
Lemma dot_map (f g : nat -> R) n : dot (map f (seq 0 n)) (map g (seq 0 n)) = Sum (fun k => f k * g k) n.
Proof. unfold dot. rewrite combine_map, map_map. cbn. apply total_map. Qed.
Lemma Cauchy f g n : (Sum (fun k => f k * g k) n) ^ 2 <= Sum (fun k => f k * f k) n * Sum (fun k => g k * g k) n.
Proof.
  set (a := Sum (fun k => f k * f k) n). set (b := Sum (fun k => g k * g k) n). set (c := Sum (fun k => f k * g k) n).
  assert (forall s t, 0 <= s * s * a + 2 * (s * t * c) + t * t * b) as H.
  { intros s t. unfold a, b, c. rewrite <- !Sum_scal, <- !Sum_plus.
    replace (Sum _ n) with (Sum (fun k => (s * f k + t * g k) * (s * f k + t * g k)) n) by (apply Sum_ext; intros; ring).
    apply Sum_nonneg. intros. apply Rle_0_sqr. }
  assert (0 <= a) by (apply Sum_nonneg; intros; apply Rle_0_sqr).
  destruct (Req_dec a 0) as [E|E].
  - assert (c = 0) as ->.
    { destruct (Req_dec c 0) as [|Ec]; [assumption|]. exfalso. pose proof (H (- (b + 1) / (2 * c)) 1) as Q. rewrite E in Q.
      replace (2 * (- (b + 1) / (2 * c) * 1 * c)) with (- (b + 1)) in Q by (field; exact Ec). lra. }
    rewrite E. lra.
  - pose proof (H (- c) a) as Q. replace (- c * - c * a + 2 * (- c * a * c) + a * a * b) with (a * (a * b - c ^ 2)) in Q by ring.
    assert (0 <= a * b - c ^ 2); [|lra]. apply (Rmult_le_reg_l a); [lra|]. lra.
Qed.

Lemma nth_flat {A} (f : nat -> list A) n m i j d : (forall i, length (f i) = n) -> (i < m)%nat -> (j < n)%nat ->
  nth (i * n + j) (flat_map f (seq 0 m)) d = nth j (f i) d.
Proof.
  intros Hl Hi Hj. rewrite flat_map_concat_map. revert i Hi. enough (forall s i, (i < m)%nat -> nth (i * n + j) (concat (map f (seq s m))) d = nth j (f (s + i)%nat) d) as H.
  { intros i Hi. rewrite H by exact Hi. reflexivity. }
  induction m as [|m IH]; intros s i Hi; [lia|]. cbn. destruct i as [|i].
  - cbn. rewrite app_nth1 by (rewrite Hl; exact Hj). rewrite Nat.add_0_r. reflexivity.
  - rewrite app_nth2 by (rewrite Hl; nia). rewrite Hl. replace (S i * n + j - n)%nat with (i * n + j)%nat by nia.
    rewrite IH by lia. f_equal. f_equal. lia.
Qed.
Lemma nth_map_seq {A} (f : nat -> A) n j d : (j < n)%nat -> nth j (map f (seq 0 n)) d = f j.
Proof. intro H. rewrite (nth_indep _ d (f O)) by (rewrite map_length, seq_length; exact H). rewrite map_nth, seq_nth by exact H. reflexivity. Qed.
Lemma nth_table {A} (g : nat -> nat -> A) n m i j d : (i < m)%nat -> (j < n)%nat ->
  nth (i * n + j) (flat_map (fun i => map (g i) (seq 0 n)) (seq 0 m)) d = g i j.
Proof. intros Hi Hj. rewrite (nth_flat (fun i => map (g i) (seq 0 n))); [|intros; rewrite map_length, seq_length; reflexivity|exact Hi|exact Hj]. apply nth_map_seq, Hj. Qed.

(** The series stored in flat data. *)
Definition flat (c : nat) (d : list R) (i k : nat) : R := nth (i * c + k) d 0.

Lemma centred_eq c i d : centred c i d = map (Dev (flat c d) c i) (seq 0 c).
Proof.
  unfold centred. set (m := ndiv _ _).
  assert (m = Mean (flat c d) c i) as ->.
  { unfold m, row, Mean. rewrite total_map. cbn. rewrite INR_IZR_INZ. reflexivity. }
  unfold row. rewrite map_map. reflexivity.
Qed.
Lemma dot_centred c i j d : dot (centred c i d) (centred c j d) = Sum (fun k => Dev (flat c d) c i k * Dev (flat c d) c j k) c.
Proof. rewrite !centred_eq. apply dot_map. Qed.

Lemma cov_entry r c d i j : (1 < r)%nat -> (1 < c)%nat -> (i < r)%nat -> (j < r)%nat ->
  nth (i * r + j) (data (np_cov r c 1 d)) 0 = SampleCov (flat c d) c i j.
Proof.
  intros Hr Hc Hi Hj. unfold np_cov. destruct (Nat.eqb_spec r 0) as [|_]; [lia|]. cbn [data].
  rewrite (nth_table (fun i j => nmul (dot (centred c i d) (centred c j d)) _)) by assumption.
  rewrite dot_centred. unfold SampleCov. cbn. rewrite Z.max_l by lia. rewrite minus_IZR, <- INR_IZR_INZ. unfold Rdiv. ring.
Qed.
Lemma cov_shape r c (d : list R) : (1 < r)%nat -> shape (np_cov r c 1 d) = [r; r].
Proof. intro H. unfold np_cov. destruct (Nat.eqb_spec r 0) as [|_]; [lia|]. cbn. destruct (Nat.eqb_spec r 1) as [|_]; [lia|reflexivity]. Qed.

Lemma cov_pos x t i : (1 < t)%nat -> Varies x t i -> 0 < SampleCov x t i i.
Proof.
  intros Ht (k & l & Hk & Hl & Hne). unfold SampleCov. apply Rdiv_lt_0_compat.
  - assert (Dev x t i k <> 0 \/ Dev x t i l <> 0) as [Hd|Hd].
    { destruct (Req_dec (Dev x t i k) 0) as [E|E]; [right|left; exact E]. unfold Dev in *. lra. }
    + apply (Sum_pos _ _ k); [intros; apply Rle_0_sqr|exact Hk|apply (Rlt_0_sqr _ Hd)].
    + apply (Sum_pos _ _ l); [intros; apply Rle_0_sqr|exact Hl|apply (Rlt_0_sqr _ Hd)].
  - apply lt_INR in Ht. cbn in Ht. lra.
Qed.

Lemma clip_in (x : R) : -1 <= x <= 1 -> clip1 x = x.
Proof.
  intro H. unfold clip1, nmax2, nmin2. cbn. destruct (Rlt_dec x (-1)); [lra|]. destruct (Rlt_dec 1 x); [lra|reflexivity].
Qed.

Lemma pearson_bound x t i j : (1 < t)%nat -> Varies x t i -> Varies x t j -> -1 <= Pearson x t i j <= 1.
Proof.
  intros Ht Hi Hj. pose proof (cov_pos x t i Ht Hi) as Pi. pose proof (cov_pos x t j Ht Hj) as Pj.
  pose proof (Cauchy (Dev x t i) (Dev x t j) t) as C.
  assert (0 < INR t - 1) as Hn by (apply lt_INR in Ht; cbn in Ht; lra).
  assert (SampleCov x t i j ^ 2 <= SampleCov x t i i * SampleCov x t j j) as C'.
  { unfold SampleCov. set (n := INR t - 1) in *. set (a := Sum _ _) in *. set (b := Sum (fun k => Dev x t i k * Dev x t i k) t) in *.
    set (e := Sum (fun k => Dev x t j k * Dev x t j k) t) in *.
    replace ((a / n) ^ 2) with (a ^ 2 * (/ n * / n)) by (field; lra). replace (b / n * (e / n)) with (b * e * (/ n * / n)) by (field; lra).
    apply Rmult_le_compat_r; [|exact C]. apply Rle_0_sqr. }
  unfold Pearson. rewrite <- sqrt_mult by lra. set (p := SampleCov x t i i * SampleCov x t j j) in *.
  assert (0 < p) as Hp by (apply Rmult_lt_0_compat; assumption).
  assert (Rabs (SampleCov x t i j) <= sqrt p) as Ha.
  { rewrite <- (sqrt_Rsqr (Rabs _)) by apply Rabs_pos. apply sqrt_le_1_alt. unfold Rsqr. rewrite <- Rabs_mult, Rabs_pos_eq by apply Rle_0_sqr. lra. }
  pose proof (sqrt_lt_R0 p Hp) as Hs.
  assert (- sqrt p <= SampleCov x t i j <= sqrt p) as [A B] by (unfold Rabs in Ha; destruct (Rcase_abs _); lra).
  split.
  - apply (Rmult_le_reg_r (sqrt p)); [exact Hs|]. unfold Rdiv. rewrite Rmult_assoc, Rinv_l by lra. lra.
  - apply (Rmult_le_reg_r (sqrt p)); [exact Hs|]. unfold Rdiv. rewrite Rmult_assoc, Rinv_l by lra. lra.
Qed.

Lemma corr_entries r c d : (1 < r)%nat -> (1 < c)%nat -> (forall i, (i < r)%nat -> Varies (flat c d) c i) ->
  exists m, correlate_fast sqrt r c 1 d = Ok m /\ shape m = [r; r] /\
    forall i j, (i < r)%nat -> (j < r)%nat -> nth (i * r + j) (data m) 0 = Pearson (flat c d) c i j.
Proof.
  intros Hr Hc Hv. unfold correlate_fast. rewrite cov_shape by exact Hr. eexists. split; [reflexivity|]. split; [reflexivity|].
  intros i j Hi Hj. cbn [data]. rewrite (nth_table (fun i j => clip1 _)) by assumption.
  change (@n0 R Num_R) with 0. rewrite !cov_entry by assumption. cbn [ndiv Num_R].
  assert (SampleCov (flat c d) c i j / sqrt (SampleCov (flat c d) c i i) / sqrt (SampleCov (flat c d) c j j) = Pearson (flat c d) c i j) as ->.
  { unfold Pearson. pose proof (sqrt_lt_R0 _ (cov_pos _ _ _ Hc (Hv i Hi))). pose proof (sqrt_lt_R0 _ (cov_pos _ _ _ Hc (Hv j Hj))). field. split; lra. }
  apply clip_in, pearson_bound; auto.
Qed.

Lemma transposed_entries ev r c d (cov : bool) : (c < r)%nat -> (1 < c)%nat ->
  exists m, transposed_eigs sqrt ev r c d cov = ev m /\ shape m = [c; c] /\
    forall k l, (k < c)%nat -> (l < c)%nat -> nth (k * c + l) (data m) 0 =
      Sum (fun i => (if cov then Dev (flat c d) c i k * Dev (flat c d) c i l else Standard (flat c d) c i k * Standard (flat c d) c i l)) r / (INR c - 1).
Proof.
  intros Hr Hc. unfold transposed_eigs. destruct (Nat.leb_spec r c) as [|_]; [lia|]. destruct (Nat.eqb_spec c 1) as [|_]; [lia|].
  eexists. split; [reflexivity|]. split; [reflexivity|]. intros k l Hk Hl. cbn [data].
  rewrite (nth_table (fun k l => dot _ _)) by assumption.
  rewrite dot_map. unfold Rdiv. rewrite Rmult_comm, <- Sum_scal. apply Sum_ext. intros i Hi.
  change (@n0 R Num_R) with 0. rewrite !centred_eq, !nth_map_seq by assumption. cbn [nmul ndiv nofZ n1 Num_R].
  rewrite minus_IZR, <- INR_IZR_INZ. destruct cov; [unfold Rdiv; ring|].
  assert (std1 sqrt c i d = sqrt (SampleCov (flat c d) c i i)) as ->.
  { unfold std1. rewrite dot_centred. unfold SampleCov. cbn [ndiv nofZ Num_R]. rewrite minus_IZR, <- INR_IZR_INZ. reflexivity. }
  unfold Standard, Rdiv. ring.
Qed.
