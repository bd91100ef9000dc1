(** Averages of products of traces of powers of Gaussian matrices: the loop equations. *)
From Coq Require Import List ZArith Bool Arith Lia Reals Lra.
From Coquelicot Require Import Coquelicot.
From Verif Require Import Base S_Generate S_Normal S_Rotate S_CCharPoly S_Moments P_Generate P_Surmise P_Rotate T_Rotate P_Moments P_Wishart P_Fourth P_CDet P_CCharPoly P_Stein.
Import ListNotations.
Local Open Scope C_scope.
Local Notation length := List.length.

Definition ck (i j : nat) : C := RtoC (kron i j).
Lemma ck_sym i j : ck i j = ck j i.
Proof. unfold ck. now rewrite kron_sym. Qed.
Lemma ck_pick n a (f : nat -> C) : (a < n)%nat -> CSumTo n (fun j => ck a j * f j) = f a.
Proof.
  intro H. rewrite <- (CSumTo_delta n a f H). apply CSumTo_ext. intros j _. unfold ck, kron. rewrite (Nat.eqb_sym a j). destruct (Nat.eqb j a); ring.
Qed.
Fixpoint mpow (n k : nat) (m : nat -> nat -> C) (i j : nat) : C :=
  match k with O => ck i j | S k' => CSumTo n (fun h => m i h * mpow n k' m h j) end.
Lemma mpow_add n m r s i j : (i < n)%nat -> CSumTo n (fun h => mpow n r m i h * mpow n s m h j) = mpow n (r + s) m i j.
Proof.
  revert i. induction r as [|r IH]; intros i Hi; cbn [mpow Nat.add]; [now rewrite (ck_pick n i (fun h => mpow n s m h j))|].
  rewrite (CSumTo_ext n _ (fun h => CSumTo n (fun g => m i g * (mpow n r m g h * mpow n s m h j)))).
  - rewrite CSumTo_swap. apply CSumTo_ext. intros g Hg. rewrite CSumTo_scale. now rewrite IH.
  - intros h _. rewrite Cmult_comm, <- CSumTo_scale. apply CSumTo_ext. intros; ring.
Qed.
Lemma mpow_1r n m k i j : (i < n)%nat -> (j < n)%nat -> CSumTo n (fun h => mpow n k m i h * m h j) = mpow n (S k) m i j.
Proof.
  intros Hi Hj. replace (S k) with (k + 1)%nat by lia. rewrite <- mpow_add by exact Hi. apply CSumTo_ext. intros h Hh. f_equal. cbn [mpow].
  rewrite (CSumTo_ext n _ (fun g => ck j g * m h g)) by (intros; rewrite (ck_sym j); ring). now rewrite (ck_pick n j (fun g => m h g)).
Qed.
Lemma mpow_sym n m k : (forall i j, (i < n)%nat -> (j < n)%nat -> m i j = m j i) -> forall i j, (i < n)%nat -> (j < n)%nat -> mpow n k m i j = mpow n k m j i.
Proof.
  intro H. induction k as [|k IH]; intros i j Hi Hj; [apply ck_sym|]. rewrite <- (mpow_1r n m k j i) by assumption. cbn [mpow]. apply CSumTo_ext. intros h Hh. rewrite (H i h), (IH h j) by assumption. ring.
Qed.
Lemma mpow_ext n m m' k : (forall i j, (i < n)%nat -> (j < n)%nat -> m i j = m' i j) -> forall i j, (i < n)%nat -> mpow n k m i j = mpow n k m' i j.
Proof. intro H. induction k as [|k IH]; intros i j Hi; [reflexivity|]. cbn [mpow]. apply CSumTo_ext. intros h Hh. now rewrite H, IH. Qed.
Definition trace_power (n k : nat) (m : nat -> nat -> C) : C := CSumTo n (fun a => mpow n k m a a).
Definition traces (n : nat) (ks : list nat) (m : nat -> nat -> C) : C := fold_right Cmult 1 (map (fun k => trace_power n k m) ks).
Definition csum {A : Type} (f : A -> C) (l : list A) : C := fold_right Cplus 0 (map f l).

Section Loop.
Variables (K n : nat) (u : nat -> nat -> nat -> C) (b : C).
Hypothesis cov : forall i j k l, (i < n)%nat -> (j < n)%nat -> (k < n)%nat -> (l < n)%nat -> cdot K (u i j) (u k l) = ck i l * ck j k + b * (ck i k * ck j l).
Local Notation M l := (fun i j => clin K (u i j) l).
Hypothesis sym : b = 0 \/ forall l i j, length l = K -> (i < n)%nat -> (j < n)%nat -> M l i j = M l j i.

Lemma bsym k l i j : length l = K -> (i < n)%nat -> (j < n)%nat -> b * mpow n k (M l) i j = b * mpow n k (M l) j i.
Proof. intros Hl Hi Hj. destruct sym as [->|S]; [ring|]. f_equal. apply mpow_sym; auto. Qed.
Lemma along_mpow k : forall i j a c, (i < n)%nat -> (j < n)%nat -> (a < n)%nat ->
  Along K (u i j) (fun l => mpow n k (M l) a c)
    (fun l => CSumTo k (fun r => mpow n r (M l) a j * mpow n (k - 1 - r) (M l) i c + b * (mpow n r (M l) a i * mpow n (k - 1 - r) (M l) j c))).
Proof.
  induction k as [|k IH]; intros i j a c Hi Hj Ha; [exact (along_const K (u i j) (ck a c))|]. cbn [mpow].
  refine (along_ext _ _ _ _ _ _ _ _ (along_SumTo K (u i j) n (fun h l => M l a h * mpow n k (M l) h c)
    (fun h l => cdot K (u i j) (u a h) * mpow n k (M l) h c + M l a h * CSumTo k (fun r => mpow n r (M l) h j * mpow n (k - 1 - r) (M l) i c + b * (mpow n r (M l) h i * mpow n (k - 1 - r) (M l) j c))) _)).
  - intros; reflexivity.
  - intros l Hl. rewrite CSumTo_add, CSumTo_shift. f_equal.
    + cbn [mpow]. replace (S k - 1 - 0)%nat with k by lia.
      rewrite (CSumTo_ext n _ (fun h => ck a j * (ck i h * mpow n k (M l) h c) + b * ck a i * (ck j h * mpow n k (M l) h c))).
      * rewrite CSumTo_add, !CSumTo_scale, !ck_pick by assumption. ring.
      * intros h Hh. rewrite cov by assumption. rewrite (ck_sym j a), (ck_sym i a). ring.
    + rewrite (CSumTo_ext n _ (fun h => CSumTo k (fun r => M l a h * (mpow n r (M l) h j * mpow n (k - 1 - r) (M l) i c + b * (mpow n r (M l) h i * mpow n (k - 1 - r) (M l) j c))))) by (intros; now rewrite CSumTo_scale).
      rewrite CSumTo_swap. apply CSumTo_ext. intros r Hr. replace (S k - 1 - S r)%nat with (k - 1 - r)%nat by lia. cbn [mpow].
      rewrite (CSumTo_ext n _ (fun h => mpow n (k - 1 - r) (M l) i c * (M l a h * mpow n r (M l) h j) + b * mpow n (k - 1 - r) (M l) j c * (M l a h * mpow n r (M l) h i))) by (intros; ring).
      rewrite CSumTo_add, !CSumTo_scale. ring.
  - intros h Hh. apply (along_mul K (u i j) (clin K (u a h)) _ (fun l => mpow n k (M l) h c)); [apply along_lin|now apply IH].
Qed.
Lemma CSumTo_const N (c : C) : CSumTo N (fun _ => c) = RtoC (INR N) * c.
Proof. induction N as [|N IH]; [cbn [CSumTo INR]; ring|]. cbn [CSumTo]. rewrite IH, S_INR, RtoC_plus. ring. Qed.
Lemma along_trace k i j : (i < n)%nat -> (j < n)%nat ->
  Along K (u i j) (fun l => trace_power n k (M l)) (fun l => RtoC (INR k) * (mpow n (k - 1) (M l) i j + b * mpow n (k - 1) (M l) j i)).
Proof.
  intros Hi Hj. unfold trace_power.
  refine (along_ext _ _ _ _ _ _ _ _ (along_SumTo K (u i j) n (fun a l => mpow n k (M l) a a) _ (fun a Ha => along_mpow k i j a a Hi Hj Ha))); [intros; reflexivity|].
  intros l Hl. rewrite CSumTo_swap, <- CSumTo_const. apply CSumTo_ext. intros r Hr. rewrite CSumTo_add, CSumTo_scale. f_equal; [|f_equal].
  - rewrite (CSumTo_ext n _ (fun a => mpow n (k - 1 - r) (M l) i a * mpow n r (M l) a j)) by (intros; ring). rewrite mpow_add by exact Hi. f_equal. lia.
  - rewrite (CSumTo_ext n _ (fun a => mpow n (k - 1 - r) (M l) j a * mpow n r (M l) a i)) by (intros; ring). rewrite mpow_add by exact Hj. f_equal. lia.
Qed.
Lemma along_traces ks i j : (i < n)%nat -> (j < n)%nat ->
  Along K (u i j) (fun l => traces n ks (M l))
    (fun l => csum (fun p => RtoC (INR (fst p)) * (mpow n (fst p - 1) (M l) i j + b * mpow n (fst p - 1) (M l) j i) * traces n (snd p) (M l)) (picks ks)).
Proof.
  intros Hi Hj. induction ks as [|k ks IH]; [exact (along_const K (u i j) 1)|].
  refine (along_ext _ _ _ _ _ _ _ _ (along_mul K (u i j) _ _ _ _ (along_trace k i j Hi Hj) IH)).
  - intros; reflexivity.
  - intros l _. unfold csum. cbn [picks map fold_right fst snd]. f_equal. rewrite map_map. cbn [fst snd]. generalize (picks ks). intro ps. induction ps as [|[m r] ps IHp]; cbn [map fold_right fst snd]; [ring|].
    rewrite <- IHp. unfold traces. cbn [map fold_right]. fold (traces n r (M l)). ring.
Qed.
Lemma csum_SumTo {A} N (f : nat -> A -> C) l : CSumTo N (fun i => csum (f i) l) = csum (fun a => CSumTo N (fun i => f i a)) l.
Proof. unfold csum. induction l as [|a l IH]; cbn [map fold_right]; [now apply CSumTo_0|]. now rewrite CSumTo_add, IH. Qed.
Lemma csum_scale {A} c (f : A -> C) l : csum (fun a => c * f a) l = c * csum f l.
Proof. unfold csum. induction l as [|a l IH]; cbn [map fold_right]; [ring|]. rewrite IH. ring. Qed.
Lemma csum_ext {A} (f g : A -> C) l : (forall a, In a l -> f a = g a) -> csum f l = csum g l.
Proof. unfold csum. induction l as [|a l IH]; intro H; [reflexivity|]. cbn [map fold_right]. rewrite IH, H; [reflexivity|now left|]. intros. apply H. now right. Qed.
Lemma csum_avg {A} (f : A -> list R -> C) (v : A -> C) l : (forall a, In a l -> CNormalAverage K (f a) (v a)) -> CNormalAverage K (fun z => csum (fun a => f a z) l) (csum v l).
Proof.
  unfold csum. induction l as [|a l IH]; intro H; cbn [map fold_right]; [apply cavg_const|]. apply (cavg_add K (f a)); [apply H; now left|]. apply IH. intros. apply H. now right.
Qed.

Lemma stein_sum (f f' : nat -> nat -> list R -> C) v : (forall i j, (i < n)%nat -> (j < n)%nat -> Along K (u i j) (f i j) (f' i j)) ->
  CNormalAverage K (fun l => CSumTo n (fun i => CSumTo n (fun j => f' i j l))) v -> CNormalAverage K (fun l => CSumTo n (fun i => CSumTo n (fun j => M l i j * f i j l))) v.
Proof.
  intros H V.
  assert (forall N (g g' : nat -> list R -> C), (forall i, (i < N)%nat -> exists w, CNormalAverage K (g i) w /\ CNormalAverage K (g' i) w) ->
    exists w, CNormalAverage K (fun l => CSumTo N (fun i => g i l)) w /\ CNormalAverage K (fun l => CSumTo N (fun i => g' i l)) w) as A.
  { intros N g g'. induction N as [|N IH]; intro G; [exists 0; split; apply (cavg_const K 0)|]. destruct IH as (x & X1 & X2); [auto|]. destruct (G N ltac:(lia)) as (y & Y1 & Y2).
    exists (x + y). split; cbn [CSumTo]; now apply cavg_add. }
  destruct (A n (fun i l => CSumTo n (fun j => M l i j * f i j l)) (fun i l => CSumTo n (fun j => f' i j l))) as (w & W1 & W2).
  { intros i Hi. apply (A n (fun j l => M l i j * f i j l) (fun j l => f' i j l)). intros j Hj. apply along_stein. now apply H. }
  assert (v = w) as ->; [|exact W1]. exact (cavg_unique _ _ _ _ V W2).
Qed.

Lemma loop_equation k ks v :
  CNormalAverage K (fun l => CSumTo k (fun r => traces n (r :: (k - 1 - r)%nat :: ks) (M l)) + b * RtoC (INR k) * traces n ((k - 1)%nat :: ks) (M l)
     + (1 + b) * csum (fun p => RtoC (INR (fst p)) * traces n ((k + fst p - 1)%nat :: snd p) (M l)) (picks ks)) v ->
  CNormalAverage K (fun l => traces n (S k :: ks) (M l)) v.
Proof.
  intro V. pose (f := fun i j l => mpow n k (M l) j i * traces n ks (M l)).
  apply (cavg_ext K (fun l => CSumTo n (fun i => CSumTo n (fun j => M l i j * f i j l)))).
  { intros l _. unfold traces at 1. cbn [map fold_right]. fold (traces n ks (M l)). unfold trace_power. cbn [mpow]. rewrite (Cmult_comm _ (traces n ks (M l))), <- CSumTo_scale. apply CSumTo_ext. intros i _.
    rewrite <- CSumTo_scale. apply CSumTo_ext. intros j _. unfold f. ring. }
  apply (stein_sum f (fun i j l => CSumTo k (fun r => mpow n r (M l) j j * mpow n (k - 1 - r) (M l) i i + b * (mpow n r (M l) j i * mpow n (k - 1 - r) (M l) j i)) * traces n ks (M l)
    + mpow n k (M l) j i * csum (fun p => RtoC (INR (fst p)) * (mpow n (fst p - 1) (M l) i j + b * mpow n (fst p - 1) (M l) j i) * traces n (snd p) (M l)) (picks ks))).
  { intros i j Hi Hj. unfold f. apply (along_mul K (u i j) (fun l => mpow n k (M l) j i)); [now apply along_mpow|now apply along_traces]. }
  refine (cavg_ext _ _ _ _ _ V). intros l Hl. symmetry.
  rewrite (CSumTo_ext n _ (fun i => CSumTo n (fun j => CSumTo k (fun r => mpow n r (M l) j j * mpow n (k - 1 - r) (M l) i i + b * (mpow n r (M l) j i * mpow n (k - 1 - r) (M l) j i)) * traces n ks (M l))
    + CSumTo n (fun j => mpow n k (M l) j i * csum (fun p => RtoC (INR (fst p)) * (mpow n (fst p - 1) (M l) i j + b * mpow n (fst p - 1) (M l) j i) * traces n (snd p) (M l)) (picks ks)))) by (intros; now rewrite CSumTo_add).
  rewrite CSumTo_add. f_equal.
  - transitivity (CSumTo k (fun r => CSumTo n (fun i => CSumTo n (fun j => traces n ks (M l) * (mpow n r (M l) j j * mpow n (k - 1 - r) (M l) i i + b * (mpow n r (M l) j i * mpow n (k - 1 - r) (M l) j i)))))).
    { symmetry. rewrite CSumTo_swap. apply CSumTo_ext. intros i _. rewrite CSumTo_swap. apply CSumTo_ext. intros j _. rewrite CSumTo_scale. ring. }
    transitivity (CSumTo k (fun r => traces n (r :: (k - 1 - r)%nat :: ks) (M l) + b * traces n ((k - 1)%nat :: ks) (M l))).
    2:{ rewrite CSumTo_add, CSumTo_const. ring. }
    apply CSumTo_ext. intros r Hr.
    transitivity (traces n ks (M l) * CSumTo n (fun i => mpow n (k - 1 - r) (M l) i i * CSumTo n (fun j => mpow n r (M l) j j) + CSumTo n (fun j => b * (mpow n (k - 1 - r) (M l) i j * mpow n r (M l) j i)))).
    { rewrite <- CSumTo_scale. apply CSumTo_ext. intros i Hi. rewrite <- (CSumTo_scale n (mpow n (k - 1 - r) (M l) i i)), <- CSumTo_add, <- CSumTo_scale. apply CSumTo_ext. intros j Hj.
      replace (b * (mpow n (k - 1 - r) (M l) i j * mpow n r (M l) j i)) with (b * mpow n (k - 1 - r) (M l) i j * mpow n r (M l) j i) by ring. rewrite (bsym (k - 1 - r) l i j) by assumption. ring. }
    rewrite CSumTo_add.
    rewrite (CSumTo_ext n (fun i => CSumTo n (fun j => b * _)) (fun i => b * mpow n (k - 1) (M l) i i)).
    2:{ intros i Hi. rewrite CSumTo_scale, mpow_add by exact Hi. do 2 f_equal. lia. }
    rewrite CSumTo_scale. unfold traces. cbn [map fold_right]. fold (traces n ks (M l)). unfold trace_power.
    rewrite (CSumTo_ext n (fun i => mpow n (k - 1 - r) (M l) i i * _) (fun i => CSumTo n (fun j => mpow n r (M l) j j) * mpow n (k - 1 - r) (M l) i i)) by (intros; ring). rewrite CSumTo_scale. ring.
  - rewrite <- csum_scale.
    transitivity (CSumTo n (fun i => CSumTo n (fun j => csum (fun p => mpow n k (M l) j i * (RtoC (INR (fst p)) * (mpow n (fst p - 1) (M l) i j + b * mpow n (fst p - 1) (M l) j i) * traces n (snd p) (M l))) (picks ks)))).
    { apply CSumTo_ext. intros i _. apply CSumTo_ext. intros j _. now rewrite csum_scale. }
    transitivity (csum (fun p => CSumTo n (fun i => CSumTo n (fun j => mpow n k (M l) j i * (RtoC (INR (fst p)) * (mpow n (fst p - 1) (M l) i j + b * mpow n (fst p - 1) (M l) j i) * traces n (snd p) (M l))))) (picks ks)).
    { rewrite <- csum_SumTo. apply CSumTo_ext. intros i _. now rewrite <- csum_SumTo. }
    apply csum_ext. intros [m r] _. cbn [fst snd]. destruct m as [|m].
    { cbn [INR]. rewrite CSumTo_0; [ring|]. intros i _. apply CSumTo_0. intros j _. ring. }
    replace (S m - 1)%nat with m by lia. replace (k + S m - 1)%nat with (m + k)%nat by lia.
    transitivity (CSumTo n (fun i => RtoC (INR (S m)) * traces n r (M l) * ((1 + b) * CSumTo n (fun j => mpow n m (M l) i j * mpow n k (M l) j i)))).
    { apply CSumTo_ext. intros i Hi. rewrite <- CSumTo_scale, <- CSumTo_scale. apply CSumTo_ext. intros j Hj. rewrite (bsym m l j i) by assumption. ring. }
    rewrite CSumTo_scale, CSumTo_scale. unfold traces. cbn [map fold_right]. fold (traces n r (M l)). unfold trace_power.
    rewrite (CSumTo_ext n (fun i => CSumTo n (fun j => mpow n m (M l) i j * mpow n k (M l) j i)) (fun i => mpow n (m + k) (M l) i i)) by (intros i Hi; now apply mpow_add). ring.
Qed.
End Loop.

Section Average.
Variables (K n : nat) (u : nat -> nat -> nat -> C) (b : R).
Hypothesis cov : forall i j k l, (i < n)%nat -> (j < n)%nat -> (k < n)%nat -> (l < n)%nat -> cdot K (u i j) (u k l) = ck i l * ck j k + RtoC b * (ck i k * ck j l).
Local Notation M l := (fun i j => clin K (u i j) l).
Hypothesis sym : b = 0%R \/ forall l i j, length l = K -> (i < n)%nat -> (j < n)%nat -> M l i j = M l j i.
Lemma picks_weight ks : forall p, In p (picks ks) -> (fst p + weight (snd p) + 1 = weight ks)%nat.
Proof.
  unfold weight. induction ks as [|k ks IH]; [intros p []|]. intros p [<-|Hp]; [cbn; lia|]. apply in_map_iff in Hp. destruct Hp as (q & <- & Hq). specialize (IH q Hq). cbn. lia.
Qed.
Lemma RtoC_SumTo N f : RtoC (SumTo N f) = CSumTo N (fun i => RtoC (f i)).
Proof. induction N as [|N IH]; [reflexivity|]. cbn [CSumTo SumTo]. now rewrite RtoC_plus, IH. Qed.
Lemma RtoC_total {A} (f : A -> R) l : RtoC (total (map f l)) = csum (fun a => RtoC (f a)) l.
Proof. unfold csum, total. induction l as [|a l IH]; [reflexivity|]. cbn [map fold_right]. now rewrite RtoC_plus, IH. Qed.
Lemma traces_average f : forall ks, (weight ks < f)%nat -> CNormalAverage K (fun l => traces n ks (M l)) (RtoC (loop_average f b (INR n) ks)).
Proof.
  induction f as [|f IH]; intros ks Hw; [lia|]. cbn [loop_average]. destruct ks as [|[|k] ks].
  - apply (cavg_const K 1).
  - rewrite RtoC_mult. refine (cavg_ext _ _ _ _ _ (cavg_scale K _ (RtoC (INR n)) _ (IH ks _))).
    + intros l _. unfold traces. cbn [map fold_right]. f_equal. unfold trace_power. cbn [mpow].
      rewrite (CSumTo_ext n _ (fun _ => 1)) by (intros; unfold ck; now rewrite kron_refl). rewrite CSumTo_const. ring.
    + unfold weight in *. cbn in Hw. lia.
  - apply (loop_equation K n u (RtoC b) cov); [destruct sym as [->|S]; [now left|now right]|].
    rewrite !RtoC_plus, !RtoC_mult, RtoC_SumTo, RtoC_total, RtoC_plus.
    apply cavg_add; [apply cavg_add|].
    + apply (cavg_SumTo K k (fun r l => traces n (r :: (k - 1 - r)%nat :: ks) (M l))). intros r Hr. apply IH. unfold weight in *. cbn in Hw |- *. lia.
    + apply cavg_scale. apply IH. unfold weight in *. cbn in Hw |- *. lia.
    + apply cavg_scale. apply (csum_avg K (fun p l => RtoC (INR (fst p)) * traces n ((k + fst p - 1)%nat :: snd p) (M l))). intros p Hp. rewrite RtoC_mult. apply cavg_scale. apply IH.
      pose proof (picks_weight ks p Hp) as W. unfold weight in *. cbn in Hw |- *. lia.
Qed.
End Average.
