(** Every Hermitian matrix has a spectrum: Jacobi's rotations and a convergent subsequence of their products. *)
From Coq Require Import List ZArith Bool Arith Lia Reals Lra ConstructiveEpsilon.
From Coquelicot Require Import Coquelicot.
From Verif Require Import Base S_Generate S_Normal S_Rotate S_Moments P_Generate P_Rotate P_Wishart P_Fourth P_CDet P_Loop P_Semi.
Import ListNotations.
Local Open Scope C_scope.
Local Notation length := List.length.

(** ** Convergent subsequences *)
Lemma subseq_one (x : nat -> R) M : (forall k, Rabs (x k) <= M)%R -> exists (f : nat -> nat) (l : R), (forall k, (k <= f k)%nat) /\ is_lim_seq (fun k => x (f k)) l.
Proof.
  intro H. destruct (Bolzano_Weierstrass x (fun c => - M <= c <= M)%R (compact_P3 _ _)) as (l & Hl).
  { intro k. specialize (H k). apply Rabs_le_between in H. exact H. }
  assert (forall k, exists p, (k <= p)%nat /\ (Rabs (x p - l) < / (INR k + 1))%R) as E.
  { intro k. assert (0 < / (INR k + 1))%R as Hp by (apply Rinv_0_lt_compat; pose proof (pos_INR k); lra). destruct (Hl (fun y => (Rabs (y - l) < / (INR k + 1))%R) k) as (p & Hkp & Hv).
    - exists (mkposreal _ Hp). intros y Hy. exact Hy.
    - exists p. auto. }
  assert (forall k p, {(k <= p)%nat /\ (Rabs (x p - l) < / (INR k + 1))%R} + {~ ((k <= p)%nat /\ (Rabs (x p - l) < / (INR k + 1))%R)}) as D.
  { intros k p. destruct (le_dec k p), (Rlt_dec (Rabs (x p - l)) (/ (INR k + 1))); tauto. }
  exists (fun k => proj1_sig (constructive_indefinite_ground_description_nat _ (D k) (E k))), l. split.
  - intro k. destruct constructive_indefinite_ground_description_nat as (p & Hp & Hv). exact Hp.
  - apply is_lim_seq_spec. intro e. destruct (nfloor_ex (/ e) ltac:(apply Rlt_le, Rinv_0_lt_compat, cond_pos)) as (N & _ & HN). exists (S N). intros k Hk.
    destruct constructive_indefinite_ground_description_nat as (p & Hkp & Hp). cbn [proj1_sig]. apply (Rlt_trans _ _ _ Hp). pose proof (cond_pos e) as He. assert (INR N + 1 < INR k + 1)%R by (apply Rplus_lt_compat_r, lt_INR; lia).
    rewrite <- (Rinv_involutive e) by lra. apply Rinv_lt_contravar; [|lra]. apply Rmult_lt_0_compat; [now apply Rinv_0_lt_compat|]. pose proof (pos_INR k). lra.
Qed.
Lemma subseq_lim (x : nat -> R) l (f : nat -> nat) : (forall k, (k <= f k)%nat) -> is_lim_seq x l -> is_lim_seq (fun k => x (f k)) l.
Proof.
  intros Hf H. refine (is_lim_seq_subseq x l f _ H). intros P (N & HN). exists N. intros k Hk. apply HN. specialize (Hf k). lia.
Qed.
Lemma subseq_many N : forall (x : nat -> nat -> R) M, (forall i k, (i < N)%nat -> Rabs (x i k) <= M)%R ->
  exists (f : nat -> nat) (l : nat -> R), (forall k, (k <= f k)%nat) /\ forall i, (i < N)%nat -> is_lim_seq (fun k => x i (f k)) (l i).
Proof.
  induction N as [|N IH]; intros x M H.
  - exists (fun k => k), (fun _ => 0%R). split; [auto|lia].
  - destruct (IH x M ltac:(intros; apply H; lia)) as (f & l & Hf & Hl). destruct (subseq_one (fun k => x N (f k)) M ltac:(intro; apply H; lia)) as (g & c & Hg & Hc).
    exists (fun k => f (g k)), (fun i => if Nat.eqb i N then c else l i). split; [intro k; specialize (Hg k); specialize (Hf (g k)); lia|]. intros i Hi. destruct (Nat.eqb i N) eqn:E.
    + apply Nat.eqb_eq in E. subst i. exact Hc.
    + apply Nat.eqb_neq in E. apply (subseq_lim (fun k => x i (f k))); [exact Hg|]. apply Hl. lia.
Qed.
(** Limits of complex sequences. *)
Definition CLim (u : nat -> C) (l : C) : Prop := is_lim_seq (fun k => fst (u k)) (fst l) /\ is_lim_seq (fun k => snd (u k)) (snd l).
Lemma clim_ext u w l : (forall k, u k = w k) -> CLim u l -> CLim w l.
Proof. intros E [H1 H2]. split; [refine (is_lim_seq_ext _ _ _ _ H1)|refine (is_lim_seq_ext _ _ _ _ H2)]; intro k; now rewrite E. Qed.
Lemma clim_const c : CLim (fun _ => c) c.
Proof. split; apply is_lim_seq_const. Qed.
Lemma clim_unique u l l' : CLim u l -> CLim u l' -> l = l'.
Proof.
  intros [H1 H2] [G1 G2]. apply is_lim_seq_unique in H1, H2, G1, G2. rewrite H1 in G1. rewrite H2 in G2. injection G1 as G1. injection G2 as G2. rewrite (surjective_pairing l), (surjective_pairing l'). now rewrite G1, G2.
Qed.
Lemma clim_add u w a b : CLim u a -> CLim w b -> CLim (fun k => u k + w k) (a + b).
Proof. intros [H1 H2] [G1 G2]. split; cbn; apply is_lim_seq_plus'; assumption. Qed.
Lemma clim_mul u w a b : CLim u a -> CLim w b -> CLim (fun k => u k * w k) (a * b).
Proof. intros [H1 H2] [G1 G2]. split; cbn; [apply is_lim_seq_minus'|apply is_lim_seq_plus']; apply is_lim_seq_mult'; assumption. Qed.
Lemma clim_conj u a : CLim u a -> CLim (fun k => Cconj (u k)) (Cconj a).
Proof. intros [H1 H2]. split; cbn; [exact H1|]. exact (proj1 (is_lim_seq_opp _ _) H2). Qed.
Lemma clim_SumTo N (u : nat -> nat -> C) (a : nat -> C) : (forall i, (i < N)%nat -> CLim (u i) (a i)) -> CLim (fun k => CSumTo N (fun i => u i k)) (CSumTo N a).
Proof. induction N as [|N IH]; intro H; cbn [CSumTo]; [apply clim_const|]. apply (clim_add (fun k => CSumTo N (fun i => u i k)) (u N)); auto. Qed.

(** ** Hermitian forms *)
Lemma Cconj_SumTo N f : Cconj (CSumTo N f) = CSumTo N (fun i => Cconj (f i)).
Proof. induction N as [|N IH]; cbn [CSumTo]; [apply Cconj_RtoC|]. now rewrite Cconj_add, IH. Qed.
Lemma Cconj_ck i j : Cconj (ck i j) = ck i j.
Proof. apply Cconj_RtoC. Qed.
Lemma CSumTo_two N p q (f g : nat -> C) : (p < N)%nat -> (q < N)%nat -> p <> q -> (forall k, k <> p -> k <> q -> f k = g k) -> CSumTo N f = CSumTo N g + (f p - g p) + (f q - g q).
Proof.
  intros Hp Hq Hpq H. pose proof (CSumTo_delta N p (fun k => f k - g k) Hp) as E1. pose proof (CSumTo_delta N q (fun k => f k - g k) Hq) as E2. cbv beta in E1, E2. rewrite <- E1, <- E2, <- !CSumTo_add. clear E1 E2.
  apply CSumTo_ext. intros k _. destruct (Nat.eq_dec k p) as [->|K1]; [|destruct (Nat.eq_dec k q) as [->|K2]].
  - rewrite Nat.eqb_refl. apply Nat.eqb_neq in Hpq. rewrite Hpq. ring.
  - rewrite Nat.eqb_refl. apply Nat.eqb_neq in K1. rewrite K1. ring.
  - rewrite H by assumption. apply Nat.eqb_neq in K1, K2. rewrite K1, K2. ring.
Qed.
Section Jacobi.
Variable n : nat.
Definition form (h : nat -> nat -> C) (x y : nat -> C) : C := CSumTo n (fun i => Cconj (x i) * CSumTo n (fun j => h i j * y j)).
Definition Hermitian (h : nat -> nat -> C) : Prop := forall i j, (i < n)%nat -> (j < n)%nat -> h j i = Cconj (h i j).
Lemma form_ext h x x' y y' : (forall i, x i = x' i) -> (forall i, y i = y' i) -> form h x y = form h x' y'.
Proof. intros E1 E2. apply CSumTo_ext. intros i _. rewrite E1. f_equal. apply CSumTo_ext. intros j _. now rewrite E2. Qed.
Lemma form_right h x y z a b : form h x (fun i => a * y i + b * z i) = a * form h x y + b * form h x z.
Proof.
  unfold form. rewrite <- !CSumTo_scale, <- CSumTo_add. apply CSumTo_ext. intros i _.
  rewrite (CSumTo_ext n _ (fun j => a * (h i j * y j) + b * (h i j * z j))) by (intros; ring). rewrite CSumTo_add, !CSumTo_scale. ring.
Qed.
Lemma form_conj h x y : Hermitian h -> form h y x = Cconj (form h x y).
Proof.
  intro Hh. unfold form. rewrite Cconj_SumTo. rewrite (CSumTo_ext n (fun i => Cconj (y i) * CSumTo n (fun j => h i j * x j)) (fun i => CSumTo n (fun j => Cconj (y i) * (h i j * x j)))) by (intros; now rewrite CSumTo_scale).
  rewrite CSumTo_swap. apply CSumTo_ext. intros j Hj. rewrite Cconj_mul, Cconj_conj, Cconj_SumTo, <- CSumTo_scale. apply CSumTo_ext. intros i Hi. rewrite Cconj_mul. rewrite (Hh j i) by assumption. ring.
Qed.
Lemma form_left h x y z a b : Hermitian h -> form h (fun i => a * x i + b * y i) z = Cconj a * form h x z + Cconj b * form h y z.
Proof. intro Hh. rewrite (form_conj h z) by exact Hh. rewrite form_right, Cconj_add, !Cconj_mul, <- !(form_conj h) by exact Hh. reflexivity. Qed.
Lemma form_real h x : Hermitian h -> form h x x = RtoC (fst (form h x x)).
Proof.
  intro Hh. pose proof (form_conj h x x Hh) as E. set (z := form h x x) in *. clearbody z. destruct z as [a b]. unfold Cconj in E. cbn in E. injection E as E. unfold RtoC. cbn. f_equal. lra.
Qed.
Lemma ck_hermitian : Hermitian ck.
Proof. intros i j _ _. rewrite Cconj_ck. apply ck_sym. Qed.

(** ** One rotation of two columns *)
Definition rotate (p q : nat) (c s : R) (w : C) (u : nat -> nat -> C) (i k : nat) : C :=
  if Nat.eqb k p then RtoC c * u i p + RtoC s * w * u i q else if Nat.eqb k q then - (RtoC s * Cconj w) * u i p + RtoC c * u i q else u i k.
Definition col (u : nat -> nat -> C) (k i : nat) : C := u i k.
Definition Columns (u : nat -> nat -> C) : Prop := forall k l, (k < n)%nat -> (l < n)%nat -> form ck (col u k) (col u l) = ck k l.
Definition Rows (u : nat -> nat -> C) : Prop := forall i j, (i < n)%nat -> (j < n)%nat -> CSumTo n (fun k => u i k * Cconj (u j k)) = ck i j.
Section Step.
Variables (p q : nat) (c s : R) (w : C) (u : nat -> nat -> C).
Hypothesis Hp : (p < n)%nat.
Hypothesis Hq : (q < n)%nat.
Hypothesis Hpq : p <> q.
Hypothesis Hcs : (c * c + s * s = 1)%R.
Hypothesis Hw : w * Cconj w = 1.
Lemma cs1 : RtoC c * RtoC c + RtoC s * RtoC s = 1.
Proof. rewrite <- !RtoC_mult, <- RtoC_plus. now rewrite Hcs. Qed.
Lemma rotate_p h z : form h z (col (rotate p q c s w u) p) = RtoC c * form h z (col u p) + RtoC s * w * form h z (col u q).
Proof. rewrite <- form_right. apply form_ext; [reflexivity|]. intro i. unfold col, rotate. now rewrite Nat.eqb_refl. Qed.
Lemma rotate_q h z : form h z (col (rotate p q c s w u) q) = - (RtoC s * Cconj w) * form h z (col u p) + RtoC c * form h z (col u q).
Proof. rewrite <- form_right. apply form_ext; [reflexivity|]. intro i. unfold col, rotate. apply not_eq_sym, Nat.eqb_neq in Hpq. now rewrite Hpq, Nat.eqb_refl. Qed.
Lemma rotate_k h z k : k <> p -> k <> q -> form h z (col (rotate p q c s w u) k) = form h z (col u k).
Proof. intros H1 H2. apply form_ext; [reflexivity|]. intro i. unfold col, rotate. apply Nat.eqb_neq in H1, H2. now rewrite H1, H2. Qed.
Lemma rotate_p' h z : Hermitian h -> form h (col (rotate p q c s w u) p) z = RtoC c * form h (col u p) z + RtoC s * Cconj w * form h (col u q) z.
Proof. intro Hh. rewrite (form_conj h z), rotate_p by exact Hh. rewrite Cconj_add, !Cconj_mul, !Cconj_RtoC, <- !(form_conj h) by exact Hh. reflexivity. Qed.
Lemma rotate_q' h z : Hermitian h -> form h (col (rotate p q c s w u) q) z = - (RtoC s * w) * form h (col u p) z + RtoC c * form h (col u q) z.
Proof.
  intro Hh. rewrite (form_conj h z), rotate_q by exact Hh. rewrite Cconj_add, !Cconj_mul, !Cconj_RtoC, <- !(form_conj h) by exact Hh.
  replace (Cconj (- (RtoC s * Cconj w))) with (- (RtoC s * w)); [reflexivity|]. unfold Cconj, RtoC, Copp, Cmult. destruct w as [a b]. cbn. f_equal; ring.
Qed.
Lemma rotate_k' h z k : Hermitian h -> k <> p -> k <> q -> form h (col (rotate p q c s w u) k) z = form h (col u k) z.
Proof. intros Hh H1 H2. rewrite (form_conj h z), rotate_k, <- (form_conj h) by assumption. reflexivity. Qed.
Lemma rotate_columns : Columns u -> Columns (rotate p q c s w u).
Proof.
  intro H. assert (ck p q = 0 /\ ck q p = 0) as [Z1 Z2] by (split; unfold ck, kron; [apply Nat.eqb_neq in Hpq; now rewrite Hpq|apply not_eq_sym, Nat.eqb_neq in Hpq; now rewrite Hpq]).
  assert (ck p p = 1 /\ ck q q = 1) as [O1 O2] by (unfold ck; now rewrite !kron_refl). pose proof cs1 as E. pose proof ck_hermitian as Hh.
  assert (forall a b, a <> b -> ck a b = 0) as Z by (intros a b Hab; unfold ck, kron; apply Nat.eqb_neq in Hab; now rewrite Hab).
  intros k l Hk Hl. destruct (Nat.eq_dec k p) as [->|Kp]; [|destruct (Nat.eq_dec k q) as [->|Kq]].
  - destruct (Nat.eq_dec l p) as [->|Lp]; [|destruct (Nat.eq_dec l q) as [->|Lq]].
    + rewrite rotate_p, !rotate_p' by exact Hh. rewrite !H, Z1, Z2, O1, O2 by assumption. replace (RtoC c * (RtoC c * 1 + RtoC s * Cconj w * 0) + RtoC s * w * (RtoC c * 0 + RtoC s * Cconj w * 1)) with (RtoC c * RtoC c + RtoC s * RtoC s * (w * Cconj w)) by ring. rewrite Hw, Cmult_1_r. exact E.
    + rewrite rotate_q, !rotate_p' by exact Hh. rewrite !H, Z1, Z2, O1, O2 by assumption. ring.
    + rewrite rotate_k, rotate_p' by assumption. rewrite !H, !(Z _ l) by auto. ring.
  - destruct (Nat.eq_dec l p) as [->|Lp]; [|destruct (Nat.eq_dec l q) as [->|Lq]].
    + rewrite rotate_p, !rotate_q' by exact Hh. rewrite !H, Z1, Z2, O1, O2 by assumption. ring.
    + rewrite rotate_q, !rotate_q' by exact Hh. rewrite !H, Z1, Z2, O1, O2 by assumption. replace (- (RtoC s * Cconj w) * (- (RtoC s * w) * 1 + RtoC c * 0) + RtoC c * (- (RtoC s * w) * 0 + RtoC c * 1)) with (RtoC c * RtoC c + RtoC s * RtoC s * (w * Cconj w)) by ring. rewrite Hw, Cmult_1_r. exact E.
    + rewrite rotate_k, rotate_q' by assumption. rewrite !H, !(Z _ l) by auto. ring.
  - rewrite rotate_k' by assumption. destruct (Nat.eq_dec l p) as [->|Lp]; [|destruct (Nat.eq_dec l q) as [->|Lq]].
    + rewrite rotate_p, !H, !(Z k) by auto. ring.
    + rewrite rotate_q, !H, !(Z k) by auto. ring.
    + rewrite rotate_k by assumption. apply H; assumption.
Qed.
Lemma rotate_rows : Rows u -> Rows (rotate p q c s w u).
Proof.
  intros H i j Hi Hj. rewrite (CSumTo_two n p q _ (fun k => u i k * Cconj (u j k)) Hp Hq Hpq).
  - rewrite H by assumption. unfold rotate. rewrite !Nat.eqb_refl. apply not_eq_sym, Nat.eqb_neq in Hpq. rewrite Hpq.
    rewrite !Cconj_add, !Cconj_mul, !Cconj_RtoC. replace (Cconj (- (RtoC s * Cconj w))) with (- (RtoC s * w)) by (unfold Cconj, RtoC, Copp, Cmult; destruct w as [a b]; cbn; f_equal; ring).
    pose proof cs1 as E. replace (RtoC c * RtoC c) with (1 - RtoC s * RtoC s) in E by (rewrite <- E; ring).
    transitivity (ck i j + ((RtoC c * RtoC c + RtoC s * RtoC s * (w * Cconj w)) - 1) * (u i p * Cconj (u j p)) + ((RtoC c * RtoC c + RtoC s * RtoC s * (w * Cconj w)) - 1) * (u i q * Cconj (u j q))); [ring|].
    rewrite Hw, Cmult_1_r, cs1. ring.
  - intros k H1 H2. unfold rotate. apply Nat.eqb_neq in H1, H2. now rewrite H1, H2.
Qed.
(** The diagonal after the rotation, when the phase makes the product real. *)
Lemma rotate_diagonal h g : Hermitian h -> w * form h (col u p) (col u q) = RtoC g ->
  fst (form h (col (rotate p q c s w u) p) (col (rotate p q c s w u) p)) = (c * c * fst (form h (col u p) (col u p)) + s * s * fst (form h (col u q) (col u q)) + 2 * c * s * g)%R /\
  fst (form h (col (rotate p q c s w u) q) (col (rotate p q c s w u) q)) = (s * s * fst (form h (col u p) (col u p)) + c * c * fst (form h (col u q) (col u q)) - 2 * c * s * g)%R.
Proof.
  intros Hh Hg. pose proof (form_real h (col u p) Hh) as A. pose proof (form_real h (col u q) Hh) as B. set (a := fst (form h (col u p) (col u p))) in *. set (b := fst (form h (col u q) (col u q))) in *.
  assert (Cconj w * form h (col u q) (col u p) = RtoC g) as Hg' by (rewrite (form_conj h (col u p)), <- Cconj_mul, Hg by exact Hh; apply Cconj_RtoC).
  split.
  - rewrite rotate_p, !rotate_p' by exact Hh. rewrite A, B.
    replace (RtoC c * (RtoC c * RtoC a + RtoC s * Cconj w * form h (col u q) (col u p)) + RtoC s * w * (RtoC c * form h (col u p) (col u q) + RtoC s * Cconj w * RtoC b))
      with (RtoC c * RtoC c * RtoC a + RtoC s * RtoC s * (w * Cconj w) * RtoC b + RtoC c * RtoC s * (Cconj w * form h (col u q) (col u p)) + RtoC c * RtoC s * (w * form h (col u p) (col u q))) by ring.
    rewrite Hw, Hg, Hg', Cmult_1_r. rewrite <- !RtoC_mult, <- !RtoC_plus. cbn. ring.
  - rewrite rotate_q, !rotate_q' by exact Hh. rewrite A, B.
    replace (- (RtoC s * Cconj w) * (- (RtoC s * w) * RtoC a + RtoC c * form h (col u q) (col u p)) + RtoC c * (- (RtoC s * w) * form h (col u p) (col u q) + RtoC c * RtoC b))
      with (RtoC s * RtoC s * (w * Cconj w) * RtoC a + RtoC c * RtoC c * RtoC b - RtoC c * RtoC s * (Cconj w * form h (col u q) (col u p)) - RtoC c * RtoC s * (w * form h (col u p) (col u q))) by ring.
    rewrite Hw, Hg, Hg', Cmult_1_r. rewrite <- !RtoC_mult, <- !RtoC_plus, <- !RtoC_minus. cbn. ring.
Qed.
End Step.
End Jacobi.
