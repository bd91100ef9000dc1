(** Orthogonal and unitary changes of basis: sums, invariance of the Frobenius form and of the trace; moments of normal numbers. *)
From Coq Require Import List Arith Lia Bool Reals Lra Ring.
From Coquelicot Require Import Coquelicot.
From Verif Require Import S_Generate S_Normal S_Rotate P_Generate P_Gauss P_Surmise.
Import ListNotations.
Local Open Scope R_scope.

(** ** Sums over a commutative ring with an involution *)
Section Ring.
Variable K : Type.
Variables (zero one : K) (add mul sub : K -> K -> K) (opp : K -> K).
Hypothesis Kth : ring_theory zero one add mul sub opp eq.
Add Ring Kring : Kth.
Variable conj : K -> K.
Hypothesis conj_zero : conj zero = zero.
Hypothesis conj_one : conj one = one.
Hypothesis conj_add : forall x y, conj (add x y) = add (conj x) (conj y).
Hypothesis conj_mul : forall x y, conj (mul x y) = mul (conj x) (conj y).
Hypothesis conj_conj : forall x, conj (conj x) = x.

Fixpoint gsum (n : nat) (f : nat -> K) : K := match n with O => zero | S m => add (gsum m f) (f m) end.
Lemma gsum_ext n f g : (forall i, (i < n)%nat -> f i = g i) -> gsum n f = gsum n g.
Proof. induction n as [|n IH]; intro H; cbn; [reflexivity|]. rewrite IH, H; [reflexivity|lia|intros; apply H; lia]. Qed.
Lemma gsum_zero n : gsum n (fun _ => zero) = zero.
Proof. induction n as [|n IH]; cbn; [reflexivity|]. rewrite IH. ring. Qed.
Lemma gsum_add n f g : gsum n (fun i => add (f i) (g i)) = add (gsum n f) (gsum n g).
Proof. induction n as [|n IH]; cbn; [ring|]. rewrite IH. ring. Qed.
Lemma gsum_mul n c f : gsum n (fun i => mul c (f i)) = mul c (gsum n f).
Proof. induction n as [|n IH]; cbn; [ring|]. rewrite IH. ring. Qed.
Lemma gsum_mul_r n c f : gsum n (fun i => mul (f i) c) = mul (gsum n f) c.
Proof. induction n as [|n IH]; cbn; [ring|]. rewrite IH. ring. Qed.
Lemma gsum_swap n m f : gsum n (fun i => gsum m (f i)) = gsum m (fun j => gsum n (fun i => f i j)).
Proof.
  induction n as [|n IH]; cbn; [symmetry; apply gsum_zero|]. rewrite IH. symmetry. apply (gsum_add m (fun j => gsum n (fun i => f i j)) (f n)).
Qed.
Lemma gsum_conj n f : conj (gsum n f) = gsum n (fun i => conj (f i)).
Proof. induction n as [|n IH]; cbn; [exact conj_zero|]. now rewrite conj_add, IH. Qed.
Definition delta (k l : nat) : K := if Nat.eqb k l then one else zero.
Lemma gsum_delta n k f : (k < n)%nat -> gsum n (fun l => mul (delta k l) (f l)) = f k.
Proof.
  intro H. induction n as [|n IH]; [lia|]. cbn. destruct (Nat.eq_dec k n) as [->|Hk].
  - unfold delta at 2. rewrite Nat.eqb_refl. rewrite (gsum_ext n _ (fun _ => zero)); [rewrite gsum_zero; ring|].
    intros i Hi. unfold delta. destruct (Nat.eqb_spec n i); [lia|ring].
  - rewrite IH by lia. unfold delta. destruct (Nat.eqb_spec k n); [lia|ring].
Qed.

Variable n : nat.
Variable u : nat -> nat -> K.
Hypothesis Hu : forall k l, (k < n)%nat -> (l < n)%nat -> gsum n (fun i => mul (u i k) (conj (u i l))) = delta k l.
Definition app_u (v : nat -> K) (i : nat) : K := gsum n (fun k => mul (u i k) (v k)).
Definition dot (v w : nat -> K) : K := gsum n (fun i => mul (v i) (conj (w i))).
Lemma dot_ext v v' w w' : (forall i, (i < n)%nat -> v i = v' i) -> (forall i, (i < n)%nat -> w i = w' i) -> dot v w = dot v' w'.
Proof. intros H1 H2. apply gsum_ext. intros i Hi. now rewrite H1, H2. Qed.
Lemma dot_u v w : dot (app_u v) (app_u w) = dot v w.
Proof.
  unfold dot, app_u.
  transitivity (gsum n (fun i => gsum n (fun k => gsum n (fun l => mul (mul (v k) (conj (w l))) (mul (u i k) (conj (u i l))))))).
  { apply gsum_ext. intros i _. rewrite gsum_conj, <- gsum_mul_r. apply gsum_ext. intros k _. rewrite <- gsum_mul. apply gsum_ext. intros l _.
    rewrite conj_mul. ring. }
  rewrite gsum_swap. apply gsum_ext. intros k Hk. rewrite gsum_swap.
  transitivity (gsum n (fun l => mul (delta k l) (mul (v k) (conj (w l))))).
  { apply gsum_ext. intros l Hl. rewrite gsum_mul, Hu by assumption. ring. }
  now rewrite gsum_delta.
Qed.
Lemma conj_delta k l : conj (delta k l) = delta k l.
Proof. unfold delta. destruct (Nat.eqb k l); assumption. Qed.

Definition gturn (m : nat -> nat -> K) (i j : nat) : K := gsum n (fun k => mul (u i k) (gsum n (fun l => mul (m k l) (conj (u j l))))).
Definition form (a b : nat -> nat -> K) : K := gsum n (fun i => gsum n (fun j => mul (a i j) (conj (b i j)))).
Lemma gturn_form a b : form (gturn a) (gturn b) = form a b.
Proof.
  unfold form. rewrite gsum_swap.
  set (c := fun (m : nat -> nat -> K) j k => gsum n (fun l => mul (m k l) (conj (u j l)))).
  transitivity (gsum n (fun j => gsum n (fun k => mul (c a j k) (conj (c b j k))))).
  { apply gsum_ext. intros j _. apply (dot_u (c a j) (c b j)). }
  rewrite gsum_swap. apply gsum_ext. intros k _.
  pose proof (dot_u (fun l => conj (a k l)) (fun l => conj (b k l))) as E. apply (f_equal conj) in E. unfold dot in E. rewrite !gsum_conj in E.
  etransitivity; [|etransitivity; [exact E|]].
  - apply gsum_ext. intros j _. rewrite conj_mul, conj_conj. unfold c, app_u. rewrite (gsum_conj n (fun l => mul (b k l) _)), gsum_conj. f_equal; apply gsum_ext; intros l _; rewrite conj_mul, conj_conj; ring.
  - apply gsum_ext. intros l _. rewrite conj_mul, !conj_conj. reflexivity.
Qed.
Lemma gturn_trace m : gsum n (fun i => gturn m i i) = gsum n (fun k => m k k).
Proof.
  unfold gturn.
  transitivity (gsum n (fun i => gsum n (fun k => gsum n (fun l => mul (m k l) (mul (u i k) (conj (u i l))))))).
  { apply gsum_ext. intros i _. apply gsum_ext. intros k _. rewrite <- gsum_mul. apply gsum_ext. intros l _. ring. }
  rewrite gsum_swap. apply gsum_ext. intros k Hk. rewrite gsum_swap.
  transitivity (gsum n (fun l => mul (delta k l) (m k l))).
  { apply gsum_ext. intros l Hl. rewrite gsum_mul, Hu by assumption. ring. }
  now rewrite gsum_delta.
Qed.
Lemma gturn_conj m i j : conj (gturn m j i) = gturn (fun k l => conj (m l k)) i j.
Proof.
  unfold gturn. rewrite gsum_conj.
  transitivity (gsum n (fun k => gsum n (fun l => mul (u i l) (mul (conj (m k l)) (conj (u j k)))))).
  { apply gsum_ext. intros k _. rewrite conj_mul, gsum_conj, <- gsum_mul. apply gsum_ext. intros l _. rewrite conj_mul, conj_conj. ring. }
  rewrite gsum_swap. apply gsum_ext. intros k _. now rewrite <- gsum_mul.
Qed.
Lemma gturn_lin a b x y i j : gturn (fun k l => add (mul a (x k l)) (mul b (y k l))) i j = add (mul a (gturn x i j)) (mul b (gturn y i j)).
Proof.
  unfold gturn. rewrite <- !gsum_mul, <- gsum_add. apply gsum_ext. intros k _.
  transitivity (mul (u i k) (add (mul a (gsum n (fun l => mul (x k l) (conj (u j l))))) (mul b (gsum n (fun l => mul (y k l) (conj (u j l))))))); [|ring].
  f_equal. rewrite <- !gsum_mul, <- gsum_add. apply gsum_ext. intros l _. ring.
Qed.
Lemma gturn_ext x y i j : (forall k l, (k < n)%nat -> (l < n)%nat -> x k l = y k l) -> gturn x i j = gturn y i j.
Proof. intro H. unfold gturn. apply gsum_ext. intros k Hk. f_equal. apply gsum_ext. intros l Hl. now rewrite H. Qed.
End Ring.

(** ** The real and the complex case *)
Lemma turn_form n q a b : Orthogonal n q ->
  SumTo n (fun i => SumTo n (fun j => turn n q a i j * turn n q b i j)) = SumTo n (fun i => SumTo n (fun j => a i j * b i j)).
Proof. intro H. exact (gturn_form R 0 1 Rplus Rmult Rminus Ropp RTheory (fun x => x) eq_refl (fun _ _ => eq_refl) (fun _ _ => eq_refl) (fun _ => eq_refl) n q H a b). Qed.
Lemma turn_trace n q m : Orthogonal n q -> SumTo n (fun i => turn n q m i i) = SumTo n (fun k => m k k).
Proof. intro H. exact (gturn_trace R 0 1 Rplus Rmult Rminus Ropp RTheory (fun x => x) n q H m). Qed.
Lemma turn_swap n q m i j : turn n q m j i = turn n q (fun k l => m l k) i j.
Proof. exact (gturn_conj R 0 1 Rplus Rmult Rminus Ropp RTheory (fun x => x) eq_refl (fun _ _ => eq_refl) (fun _ _ => eq_refl) (fun _ => eq_refl) n q m i j). Qed.
Lemma turn_lin n q a b x y i j : turn n q (fun k l => a * x k l + b * y k l) i j = a * turn n q x i j + b * turn n q y i j.
Proof. exact (gturn_lin R 0 1 Rplus Rmult Rminus Ropp RTheory (fun x => x) n q a b x y i j). Qed.
Lemma turn_ext n q x y i j : (forall k l, (k < n)%nat -> (l < n)%nat -> x k l = y k l) -> turn n q x i j = turn n q y i j.
Proof. exact (gturn_ext R 0 Rplus Rmult (fun x => x) n q x y i j). Qed.

Lemma Cth : ring_theory (RtoC 0) (RtoC 1) Cplus Cmult Cminus Copp eq.
Proof.
  constructor; intros; unfold RtoC, Cplus, Cmult, Cminus, Copp; try (destruct x as [a b]); try (destruct y as [c d]); try (destruct z as [e f]); cbn; try (apply f_equal2; ring); reflexivity.
Qed.
Lemma Cconj_add x y : Cconj (Cplus x y) = Cplus (Cconj x) (Cconj y).
Proof. destruct x, y. unfold Cconj, Cplus. cbn. f_equal. ring. Qed.
Lemma Cconj_mul x y : Cconj (Cmult x y) = Cmult (Cconj x) (Cconj y).
Proof. destruct x, y. unfold Cconj, Cmult. cbn. f_equal; ring. Qed.
Lemma Cconj_conj x : Cconj (Cconj x) = x.
Proof. destruct x. unfold Cconj. cbn. f_equal. ring. Qed.
Lemma Cconj_RtoC r : Cconj (RtoC r) = RtoC r.
Proof. unfold Cconj, RtoC. cbn. f_equal. ring. Qed.
Lemma Unitary_delta n u : Unitary n u -> forall k l, (k < n)%nat -> (l < n)%nat ->
  gsum C (RtoC 0) Cplus n (fun i => Cmult (u i k) (Cconj (u i l))) = delta C (RtoC 0) (RtoC 1) k l.
Proof. intros H k l Hk Hl. etransitivity; [exact (H k l Hk Hl)|]. unfold delta. now destruct (Nat.eqb k l). Qed.
Lemma cturn_form n u a b : Unitary n u ->
  CSumTo n (fun i => CSumTo n (fun j => Cmult (cturn n u a i j) (Cconj (cturn n u b i j)))) = CSumTo n (fun i => CSumTo n (fun j => Cmult (a i j) (Cconj (b i j)))).
Proof. intro H. exact (gturn_form C (RtoC 0) (RtoC 1) Cplus Cmult Cminus Copp Cth Cconj (Cconj_RtoC 0) Cconj_add Cconj_mul Cconj_conj n u (Unitary_delta n u H) a b). Qed.
Lemma cturn_trace n u m : Unitary n u -> CSumTo n (fun i => cturn n u m i i) = CSumTo n (fun k => m k k).
Proof. intro H. exact (gturn_trace C (RtoC 0) (RtoC 1) Cplus Cmult Cminus Copp Cth Cconj n u (Unitary_delta n u H) m). Qed.
Lemma cturn_conj n u m i j : Cconj (cturn n u m j i) = cturn n u (fun k l => Cconj (m l k)) i j.
Proof. exact (gturn_conj C (RtoC 0) (RtoC 1) Cplus Cmult Cminus Copp Cth Cconj (Cconj_RtoC 0) Cconj_add Cconj_mul Cconj_conj n u m i j). Qed.
Lemma cturn_lin n u a b x y i j :
  cturn n u (fun k l => Cplus (Cmult a (x k l)) (Cmult b (y k l))) i j = Cplus (Cmult a (cturn n u x i j)) (Cmult b (cturn n u y i j)).
Proof. exact (gturn_lin C (RtoC 0) (RtoC 1) Cplus Cmult Cminus Copp Cth Cconj n u a b x y i j). Qed.
Lemma cturn_ext n u x y i j : (forall k l, (k < n)%nat -> (l < n)%nat -> x k l = y k l) -> cturn n u x i j = cturn n u y i j.
Proof. exact (gturn_ext C (RtoC 0) Cplus Cmult Cconj n u x y i j). Qed.
Lemma CSumTo_fst n f : fst (CSumTo n f) = SumTo n (fun i => fst (f i)).
Proof. induction n as [|n IH]; cbn; [reflexivity|]. now rewrite IH. Qed.

(** ** Lists of entries *)
Lemma total_SumTo (f : nat -> R) k : total (map f (seq 0 k)) = SumTo k f.
Proof.
  assert (forall s, total (map f (seq s k)) = SumTo k (fun i => f (s + i)%nat)) as H; [|apply (H 0%nat)].
  induction k as [|k IH]; intro s; [reflexivity|]. cbn [seq map]. unfold total in *. cbn [fold_right]. rewrite IH, (SumTo_shift k). rewrite Nat.add_0_r.
  f_equal. apply SumTo_ext. intros i _. f_equal. lia.
Qed.
Lemma SumTo_split m n f : SumTo (m + n) f = SumTo m f + SumTo n (fun j => f (m + j)%nat).
Proof. induction n as [|n IH]; [rewrite Nat.add_0_r; cbn; ring|]. rewrite Nat.add_succ_r. cbn [SumTo]. rewrite IH. ring. Qed.
Lemma SumTo_rows a n f : SumTo (a * n) f = SumTo a (fun i => SumTo n (fun j => f (i * n + j)%nat)).
Proof. induction a as [|a IH]; [reflexivity|]. replace (S a * n)%nat with (a * n + n)%nat by lia. rewrite SumTo_split, IH. reflexivity. Qed.
Lemma nth_map_seq (f : nat -> R) k p : (p < k)%nat -> nth p (map f (seq 0 k)) 0 = f p.
Proof.
  intro H. rewrite (nth_indep _ 0 (f 0%nat)) by (now rewrite map_length, seq_length). rewrite map_nth, seq_nth by exact H. reflexivity.
Qed.
Lemma list_seq (l : list R) : l = map (fun i => nth i l 0) (seq 0 (length l)).
Proof.
  apply (nth_ext _ _ 0 0); [now rewrite map_length, seq_length|]. intros i Hi.
  now rewrite (nth_map_seq (fun i => nth i l 0)).
Qed.
Lemma squares_SumTo (l : list R) : squares l = SumTo (length l) (fun i => nth i l 0 * nth i l 0).
Proof. unfold squares. rewrite (list_seq l) at 1. rewrite map_map. apply (total_SumTo (fun i => nth i l 0 * nth i l 0)). Qed.
Lemma entries_length n m : length (entries n m) = (n * n)%nat.
Proof. unfold entries. now rewrite map_length, seq_length. Qed.
Lemma row_major n i j : (i < n)%nat -> (j < n)%nat -> (i * n + j < n * n)%nat /\ ((i * n + j) / n = i)%nat /\ ((i * n + j) mod n = j)%nat.
Proof.
  intros Hi Hj. split; [nia|]. split.
  - rewrite Nat.div_add_l by lia. rewrite Nat.div_small by exact Hj. lia.
  - rewrite Nat.add_comm, Nat.mod_add by lia. now apply Nat.mod_small.
Qed.
Lemma entries_nth n m i j : (i < n)%nat -> (j < n)%nat -> nth (i * n + j) (entries n m) 0 = m i j.
Proof.
  intros Hi Hj. destruct (row_major n i j Hi Hj) as (H1 & H2 & H3). unfold entries. rewrite nth_map_seq by exact H1. now rewrite H2, H3.
Qed.
Lemma squares_entries n m : squares (entries n m) = SumTo n (fun i => SumTo n (fun j => m i j * m i j)).
Proof.
  rewrite squares_SumTo, entries_length, SumTo_rows. apply SumTo_ext. intros i Hi. apply SumTo_ext. intros j Hj. now rewrite entries_nth.
Qed.
Lemma squares_rows n (l : list R) : length l = (n * n)%nat -> squares l = SumTo n (fun i => SumTo n (fun j => nth (i * n + j) l 0 * nth (i * n + j) l 0)).
Proof. intro H. now rewrite squares_SumTo, H, SumTo_rows. Qed.
Lemma total_app a b : total (a ++ b) = total a + total b.
Proof. unfold total. induction a as [|x a IH]; cbn; [ring|]. rewrite IH. ring. Qed.
Lemma squares_app a b : squares (a ++ b) = squares a + squares b.
Proof. unfold squares. now rewrite map_app, total_app. Qed.

(** The joint density depends on the sum of squares only. *)
Lemma joint_density_eq l : joint_density l = (/ sqrt (2 * PI)) ^ length l * exp (- squares l / 2).
Proof.
  induction l as [|x l IH]; unfold joint_density, squares, total in *; cbn [map fold_right length pow].
  - replace (- 0 / 2) with 0 by field. rewrite exp_0. ring.
  - rewrite IH. unfold normal_density. replace (- (x * x + fold_right Rplus 0 (map (fun x0 => x0 * x0) l)) / 2) with (- (x * x) / 2 + - fold_right Rplus 0 (map (fun x0 => x0 * x0) l) / 2) by field.
    rewrite exp_plus. unfold Rdiv. ring.
Qed.
Lemma iso_density k t l : Isometry k t -> length l = k -> joint_density (t l) = joint_density l.
Proof. intros H Hl. rewrite !joint_density_eq, (iso_length k t H l Hl), (iso_norm k t H l Hl), Hl. reflexivity. Qed.

(** ** Linear combinations of averages *)
Lemma whole_lin f g u v a b : WholeLine f u -> WholeLine g v -> WholeLine (fun x => a * f x + b * g x) (a * u + b * v).
Proof.
  intros (F1 & F2) (G1 & G2).
  assert (forall s t, is_RInt (fun x => a * f x + b * g x) s t (a * RInt f s t + b * RInt g s t)) as HI.
  { intros s t. apply (is_RInt_plus (V := R_NormedModule) (fun x => a * f x) (fun x => b * g x)); apply (is_RInt_scal (V := R_NormedModule)); apply (RInt_correct (V := R_CompleteNormedModule)); auto. }
  split; [intros s t; eexists; apply HI|]. intros e He.
  assert (0 < e / 2 / (Rabs a + 1)) as Ha by (pose proof (Rabs_pos a); repeat apply Rdiv_lt_0_compat; lra).
  assert (0 < e / 2 / (Rabs b + 1)) as Hb by (pose proof (Rabs_pos b); repeat apply Rdiv_lt_0_compat; lra).
  destruct (F2 _ Ha) as [M HM]. destruct (G2 _ Hb) as [M' HM']. exists (Rmax M M'). intros s t Hs Ht. pose proof (Rmax_l M M'). pose proof (Rmax_r M M').
  rewrite (is_RInt_unique (V := R_CompleteNormedModule) _ _ _ _ (HI s t)).
  specialize (HM s t ltac:(lra) ltac:(lra)). specialize (HM' s t ltac:(lra) ltac:(lra)).
  replace (a * RInt f s t + b * RInt g s t - (a * u + b * v)) with (a * (RInt f s t - u) + b * (RInt g s t - v)) by ring.
  eapply Rle_lt_trans; [apply Rabs_triang|]. rewrite !Rabs_mult. pose proof (Rabs_pos a). pose proof (Rabs_pos b). pose proof (Rabs_pos (RInt f s t - u)). pose proof (Rabs_pos (RInt g s t - v)).
  assert (e / 2 = e / 2 / (Rabs a + 1) * (Rabs a + 1)) as Ea by (field; lra). assert (e / 2 = e / 2 / (Rabs b + 1) * (Rabs b + 1)) as Eb by (field; lra).
  assert (Rabs a * Rabs (RInt f s t - u) < e / 2) by (rewrite Ea; nra). assert (Rabs b * Rabs (RInt g s t - v) < e / 2) by (rewrite Eb; nra). lra.
Qed.
Lemma navg_lin k f g u v a b : NormalAverage k f u -> NormalAverage k g v -> NormalAverage k (fun l => a * f l + b * g l) (a * u + b * v).
Proof.
  revert f g u v. induction k as [|k IH]; intros f g u v; cbn [NormalAverage]; [intros <- <-; reflexivity|]. intros (p & P1 & P2) (q & Q1 & Q2).
  exists (fun x => a * p x + b * q x). split; [intro x; apply IH; auto|]. apply (whole_ext (fun x => a * (phi x * p x) + b * (phi x * q x))); [intro; ring|]. now apply whole_lin.
Qed.
Lemma navg_SumTo k n (f : nat -> list R -> R) (v : nat -> R) : (forall i, (i < n)%nat -> NormalAverage k (f i) (v i)) ->
  NormalAverage k (fun l => SumTo n (fun i => f i l)) (SumTo n v).
Proof.
  induction n as [|n IH]; intro H; cbn [SumTo]; [apply navg_const|].
  refine (navg_ext _ _ _ _ _ _); [|replace (SumTo n v + v n) with (1 * SumTo n v + 1 * v n) by ring; apply (navg_lin k (fun l => SumTo n (fun i => f i l)) (f n)); [apply IH; auto|apply H; lia]].
  intros l _. cbv beta. ring.
Qed.
Lemma navg_scale k f v c : NormalAverage k f v -> NormalAverage k (fun l => c * f l) (c * v).
Proof.
  intro H. refine (navg_ext _ _ _ _ _ _); [|replace (c * v) with (c * v + 0 * 0) by ring; apply (navg_lin k f (fun _ => 0)); [exact H|apply navg_const]].
  intros l _. cbv beta. ring.
Qed.

(** ** First and second moments *)
Lemma phi_small e : 0 < e -> exists M, 0 < M /\ forall x, M <= Rabs x -> Rabs (x * phi x) < e /\ phi x < e.
Proof.
  intro He. exists (1 + 2 / e). assert (0 < 2 / e) by (apply Rdiv_lt_0_compat; lra). split; [lra|]. intros x Hx.
  assert (0 < Rabs x) as Hp by lra.
  assert (phi x * (x * x) <= 2) as H2.
  { unfold normal_density. assert (1 <= sqrt (2 * PI)) as H1 by (rewrite <- sqrt_1; apply sqrt_le_1; pose proof PI2_3_2; lra).
    assert (exp (- (x * x) / 2) * (x * x) <= 2) as H3.
    { pose proof (exp_ineq1_le (x * x / 2)) as K. pose proof (exp_pos (- (x * x) / 2)) as K0.
      assert (exp (- (x * x) / 2) * exp (x * x / 2) = 1) as K1 by (rewrite <- exp_plus; replace (- (x * x) / 2 + x * x / 2) with 0 by field; apply exp_0). nra. }
    unfold Rdiv. rewrite Rmult_assoc, (Rmult_comm (/ _)), <- Rmult_assoc. apply Rmult_le_reg_r with (sqrt (2 * PI)); [lra|].
    unfold Rdiv in H3. rewrite Rmult_assoc, Rinv_l by lra. lra. }
  pose proof (phi_pos x) as Hphi. assert (x * x = Rabs x * Rabs x) as Ex by (rewrite <- Rabs_mult; rewrite Rabs_pos_eq; [ring|nra]).
  rewrite Rabs_mult, (Rabs_pos_eq (phi x)) by lra. rewrite Ex in H2.
  assert (Rabs x * phi x < e) as HA.
  { assert (Rabs x * phi x * Rabs x <= 2) by lra. assert (2 / e * e = 2) as E2 by (field; lra).
    destruct (Rlt_le_dec (Rabs x * phi x) e) as [G|G]; [exact G|]. exfalso. assert (e * (1 + 2 / e) <= Rabs x * phi x * Rabs x) by (apply Rmult_le_compat; lra). lra. }
  split; [exact HA|]. assert (1 <= Rabs x) by lra. nra.
Qed.
Lemma moment1 : WholeLine (fun x => phi x * x) 0.
Proof.
  assert (forall a b, is_RInt (fun x => phi x * x) a b (- phi b - - phi a)) as HI.
  { intros a b. apply (is_RInt_derive (V := R_CompleteNormedModule) (fun x => - phi x)).
    - intros x _. evar_last; [apply (is_derive_opp (V := R_NormedModule)), phi_derive|]. unfold opp. cbn. ring.
    - intros x _. apply (continuous_mult (K := R_AbsRing) phi (fun x => x)); [apply phi_cont|apply continuous_id]. }
  split; [intros a b; eexists; apply HI|]. intros e He. destruct (phi_small (e / 2)) as (M & HM0 & HM); [lra|]. exists M. intros a b Ha Hb.
  rewrite (is_RInt_unique (V := R_CompleteNormedModule) _ _ _ _ (HI a b)).
  assert (phi a < e / 2) as A by (apply HM; rewrite Rabs_left; lra). assert (phi b < e / 2) as B by (apply HM; rewrite Rabs_pos_eq; lra).
  pose proof (phi_pos a). pose proof (phi_pos b). apply Rabs_def1; lra.
Qed.
Lemma moment2 : WholeLine (fun x => phi x * (x * x)) 1.
Proof.
  assert (forall a b, is_RInt (fun x => phi x * (x * x)) a b (Aint b - b * phi b - (Aint a - a * phi a))) as HI.
  { intros a b. apply (is_RInt_derive (V := R_CompleteNormedModule) (fun x => Aint x - x * phi x)).
    - intros x _. evar_last.
      + apply (is_derive_minus (V := R_NormedModule)); [apply Aint_derive|]. apply (is_derive_mult (fun x => x) phi); [apply is_derive_id|apply phi_derive|apply Rmult_comm].
      + unfold minus, plus, opp, mult, one. cbn. ring.
    - intros x _. apply (continuous_mult (K := R_AbsRing) phi (fun x => x * x)); [apply phi_cont|]. apply (continuous_mult (K := R_AbsRing)); apply continuous_id. }
  split; [intros a b; eexists; apply HI|]. intros e He. destruct phi_whole as (_ & W). destruct (W (e / 3)) as (M' & HM'); [lra|].
  destruct (phi_small (e / 3)) as (M & HM0 & HM); [lra|]. exists (Rmax M M'). intros a b Ha Hb. pose proof (Rmax_l M M'). pose proof (Rmax_r M M').
  rewrite (is_RInt_unique (V := R_CompleteNormedModule) _ _ _ _ (HI a b)). specialize (HM' a b ltac:(lra) ltac:(lra)). rewrite Aint_diff in HM'.
  assert (Rabs (a * phi a) < e / 3) as A by (apply HM; rewrite Rabs_left; lra). assert (Rabs (b * phi b) < e / 3) as B by (apply HM; rewrite Rabs_pos_eq; lra).
  apply Rabs_def2 in HM'. apply Rabs_def2 in A. apply Rabs_def2 in B. apply Rabs_def1; lra.
Qed.
Lemma navg_first k f v w : (forall x, NormalAverage k (fun l => f (x :: l)) (v x)) -> WholeLine (fun x => phi x * v x) w -> NormalAverage (S k) f w.
Proof. intros H W. cbn [NormalAverage]. exists v. split; assumption. Qed.
Lemma phi_times c : WholeLine (fun x => phi x * c) c.
Proof.
  pose proof (whole_lin _ _ _ _ c 0 phi_whole phi_whole) as H. replace (c * 1 + 0 * 1) with c in H by ring. revert H. apply whole_ext. intro x. ring.
Qed.
Lemma navg_later k (f : list R -> R) v : NormalAverage k f v -> NormalAverage (S k) (fun l => f (tl l)) v.
Proof.
  intro H. apply (navg_first k _ (fun _ => v)); [intro x; exact H|]. apply phi_times.
Qed.
Lemma navg_coord k i : (i < k)%nat -> NormalAverage k (fun l => nth i l 0) 0.
Proof.
  revert i. induction k as [|k IH]; intros i Hi; [lia|]. destruct i as [|i].
  - apply (navg_first k _ (fun x => x)); [intro x; exact (navg_const k x)|exact moment1].
  - refine (navg_ext _ _ _ _ _ (navg_later k _ _ (IH i ltac:(lia)))). intros [|x l] E; [discriminate|reflexivity].
Qed.
Lemma navg_pair k i j : (i < k)%nat -> (j < k)%nat -> NormalAverage k (fun l => nth i l 0 * nth j l 0) (if Nat.eqb i j then 1 else 0).
Proof.
  revert i j. induction k as [|k IH]; intros i j Hi Hj; [lia|]. destruct i as [|i], j as [|j]; cbn [Nat.eqb].
  - apply (navg_first k _ (fun x => x * x)); [intro x; exact (navg_const k (x * x))|exact moment2].
  - apply (navg_first k _ (fun x => x * 0)); [intro x; exact (navg_scale k (fun l => nth j l 0) 0 x (navg_coord k j ltac:(lia)))|].
    apply (whole_ext (fun x => phi x * 0)); [intro; ring|]. apply phi_times.
  - apply (navg_first k _ (fun x => x * 0)); [intro x|].
    + refine (navg_ext _ _ _ _ _ (navg_scale k (fun l => nth i l 0) 0 x (navg_coord k i ltac:(lia)))). intros l _. cbn [nth]. ring.
    + apply (whole_ext (fun x => phi x * 0)); [intro; ring|]. apply phi_times.
  - refine (navg_ext _ _ _ _ _ (navg_later k _ _ (IH i j ltac:(lia) ltac:(lia)))). intros [|x l] E; [discriminate|reflexivity].
Qed.
(** The law of the draws does not change when all signs do. *)
Lemma navg_opp k f v : NormalAverage k f v -> NormalAverage k (fun l => f (map Ropp l)) v.
Proof.
  revert f v. induction k as [|k IH]; intros f v; cbn [NormalAverage]; [exact (fun H => H)|]. intros (g & G1 & G2). exists (fun x => g (- x)). split.
  - intro x. apply (IH (fun l => f (- x :: l))). apply G1.
  - apply (whole_ext (fun x => (fun y => phi y * g y) (- x))); [intro x; cbv beta; now rewrite phi_even|]. exact (whole_opp (fun y => phi y * g y) v G2).
Qed.
