(** The counting loop of [Compare.__histograms]. *)
From Coq Require Import List ZArith Bool Arith Lia Reals Lra Permutation Sorted.
From Verif Require Import Base S_Order M_Compare M_Quad M_Hist S_Hist P_Order P_Step P_Ols P_TrimStat P_EigVals P_Quad.
Import ListNotations.
Local Open Scope nat_scope.

Definition cnt (f : R -> bool) (l : list R) : nat := length (filter f l).
Definition below (t v : R) : bool := nlt v t.
Definition atleast (t v : R) : bool := negb (below t v).
Lemma below_R t v : below t v = true <-> (v < t)%R.
Proof. apply nlt_R. Qed.
Lemma below_R_false t v : below t v = false <-> (t <= v)%R.
Proof. unfold below. rewrite nlt_R_false. tauto. Qed.

Lemma cnt_cons f x l : cnt f (x :: l) = (if f x then 1 else 0) + cnt f l.
Proof. unfold cnt. cbn. now destruct (f x). Qed.
Lemma cnt_le f l : cnt f l <= length l.
Proof. induction l as [|x l IH]; [easy|]. rewrite cnt_cons. cbn. destruct (f x); lia. Qed.
Lemma cnt_compl t l : cnt (below t) l + cnt (atleast t) l = length l.
Proof. induction l as [|x l IH]; [easy|]. rewrite !cnt_cons. cbn [length]. unfold atleast at 1. destruct (below t x); cbn [negb]; lia. Qed.
Lemma cnt_zero f l : Forall (fun x => f x = false) l -> cnt f l = 0.
Proof. induction 1 as [|x l H _ IH]; [easy|]. now rewrite cnt_cons, H, IH. Qed.
Lemma cnt_mono (f g : R -> bool) l : (forall x, f x = true -> g x = true) -> cnt f l <= cnt g l.
Proof.
  intros H. induction l as [|x l IH]; [easy|]. rewrite !cnt_cons. specialize (H x). destruct (f x); [rewrite H by easy|destruct (g x)]; lia.
Qed.
Lemma cnt_perm f l l' : Permutation l l' -> cnt f l = cnt f l'.
Proof. induction 1; rewrite ?cnt_cons; lia. Qed.

Lemma set_nth_eq {A} (l : list A) i v d : i < length l -> nth i (set_nth l i v) d = v.
Proof. intros H. apply nth_error_nth. now apply set_nth_same. Qed.
Lemma set_nth_neq {A} (l : list A) i j v d : i <> j -> nth j (set_nth l i v) d = nth j l d.
Proof.
  intros H. pose proof (set_nth_other l i j v H) as E. destruct (nth_error l j) as [x|] eqn:E2.
  - now rewrite (nth_error_nth _ _ d E), (nth_error_nth _ _ d E2).
  - apply nth_error_None in E, E2. now rewrite !nth_overflow.
Qed.

Section Loop.
Variable e : list R.
Variable m : nat.
Hypothesis He : length e = S m.
Let E i := nth i e 0%R.
Hypothesis Hmono : forall i j, i <= j <= m -> (E i <= E j)%R.

Lemma e_nth n : n <= m -> nth_error e n = Some (E n).
Proof. intros H. unfold E. apply nth_error_nth'. lia. Qed.

Lemma loop_raises vals : StronglySorted Rle vals -> forall n counts, n < m -> length counts = m ->
  (hist_loop vals e n counts = Raise RuntimeError \/ exists c, hist_loop vals e n counts = Ok c) /\
  (hist_loop vals e n counts = Raise RuntimeError <-> forall j, n <= j < m -> m - j <= cnt (atleast (E j)) vals).
Proof.
  induction 1 as [|v t _ IH Ht]; intros n counts Hn Hc; cbn [hist_loop].
  - split; [eauto|]. split; [discriminate|]. intros H. specialize (H n ltac:(lia)). cbn in H. lia.
  - rewrite e_nth by lia. fold (below (E n) v). destruct (below (E n) v) eqn:Ev.
    + rewrite (proj2 (Nat.leb_gt (length counts) n)) by lia.
      destruct (IH n (set_nth counts n (nth n counts 0 + 1)%Z) Hn) as (I1 & I2); [now rewrite set_nth_length|].
      split; [exact I1|]. rewrite I2. apply below_R in Ev.
      assert (forall j, n <= j < m -> cnt (atleast (E j)) (v :: t) = cnt (atleast (E j)) t) as Q.
      { intros j Hj. rewrite cnt_cons. unfold atleast. replace (below (E j) v) with true; [easy|]. symmetry. apply below_R.
        apply Rlt_le_trans with (1 := Ev). apply Hmono. lia. }
      split; intros H j Hj; specialize (H j Hj); [rewrite Q|rewrite Q in H]; auto.
    + apply below_R_false in Ev. rewrite Hc. destruct (Nat.leb m (S n)) eqn:L.
      * apply Nat.leb_le in L. split; [auto|]. split; [|auto]. intros _ j Hj. assert (j = n) as -> by lia.
        rewrite cnt_cons. unfold atleast. rewrite (proj2 (below_R_false _ _) Ev). cbn. lia.
      * apply Nat.leb_gt in L. destruct (IH (S n) counts L Hc) as (I1 & I2). split; [exact I1|]. rewrite I2. clear I1 I2 IH.
        assert (forall s, (s <= v)%R -> cnt (atleast s) t = length t) as Q.
        { intros s Hs. rewrite <- (cnt_compl s t). rewrite (cnt_zero (below s) t); [easy|].
          eapply Forall_impl; [|exact Ht]. cbn. intros a Ha. apply below_R_false. lra. }
        assert (forall s, (s <= v)%R -> atleast s v = true) as Q'. { intros s Hs. unfold atleast. now rewrite (proj2 (below_R_false _ _) Hs). }
        split; intros H j Hj.
        -- destruct (Nat.eq_dec j n) as [->|Hne].
           ++ rewrite cnt_cons, Q', Q by exact Ev. specialize (H (S n) ltac:(lia)). pose proof (cnt_le (atleast (E (S n))) t). lia.
           ++ specialize (H j ltac:(lia)). rewrite cnt_cons. lia.
        -- pose proof (H j ltac:(lia)) as H1. rewrite cnt_cons in H1. destruct (atleast (E j) v) eqn:A; [|exact H1].
           assert (E j <= v)%R as A'. { unfold atleast in A. apply negb_true_iff in A. now apply below_R_false in A. }
           rewrite Q by exact A'. specialize (H n ltac:(lia)). rewrite cnt_cons, Q', Q in H by exact Ev. lia.
Qed.

Lemma leaves_skip Bv Bt : Bv 0 = 0 -> (forall j, Bv (S j) = S (Bt j) \/ (Bv (S j) = 0 /\ Bt j = 0)) -> forall k, Leaves Bv (S k) = S (Leaves Bt k).
Proof.
  intros H0 H k. induction k as [|k IH].
  - cbn [Leaves]. rewrite H0. destruct (H 0) as [->|[-> ->]]; lia.
  - change (Leaves Bv (S (S k))) with (Nat.max (S (Leaves Bv (S k))) (Bv (S (S k)))). rewrite IH. cbn [Leaves]. destruct (H (S k)) as [->|[-> ->]]; lia.
Qed.
Lemma leaves_step Bv Bt : (forall j, Bv j = S (Bt j)) -> forall k, Leaves Bv k = S (Leaves Bt k).
Proof. intros H k. induction k as [|k IH]; cbn [Leaves]; rewrite ?IH, H; lia. Qed.
Lemma leaves_ext B B' k : (forall j, j <= k -> B j = B' j) -> Leaves B k = Leaves B' k.
Proof. induction k as [|k IH]; intros H; cbn [Leaves]; [now apply H|]. rewrite IH, H by auto. reflexivity. Qed.

Lemma loop_counts vals : StronglySorted Rle vals -> forall n counts c, n < m -> length counts = m -> hist_loop vals e n counts = Ok c ->
  length c = m /\ forall i, i < m -> nth i c 0%Z =
    (nth i counts 0 + Z.of_nat (if Nat.ltb i n then 0 else Gain (fun j => cnt (below (E (n + j))) vals) (length vals) (i - n)))%Z.
Proof.
  induction 1 as [|v t St IH Ht]; intros n counts c Hn Hc; cbn [hist_loop].
  - intros [= <-]. split; [exact Hc|]. intros i Hi. destruct (Nat.ltb i n); [lia|]. unfold Gain. cbn [length]. rewrite Nat.min_0_l. cbn. lia.
  - rewrite e_nth by lia. fold (below (E n) v). destruct (below (E n) v) eqn:Ev.
    + rewrite (proj2 (Nat.leb_gt (length counts) n)) by lia. intros H. apply IH in H; [|exact Hn|now rewrite set_nth_length].
      destruct H as (H1 & H2). split; [exact H1|]. intros i Hi. rewrite H2 by exact Hi. apply below_R in Ev.
      assert (forall j, n + j <= m -> cnt (below (E (n + j))) (v :: t) = S (cnt (below (E (n + j))) t)) as Q.
      { intros j Hj. rewrite cnt_cons. replace (below (E (n + j)) v) with true; [easy|]. symmetry. apply below_R. apply Rlt_le_trans with (1 := Ev). apply Hmono. lia. }
      destruct (Nat.ltb i n) eqn:Li.
      * apply Nat.ltb_lt in Li. rewrite set_nth_neq by lia. lia.
      * apply Nat.ltb_ge in Li.
        assert (forall k, n + k <= m -> Leaves (fun j => cnt (below (E (n + j))) (v :: t)) k = S (Leaves (fun j => cnt (below (E (n + j))) t) k)) as LQ.
        { intros k Hk. rewrite (leaves_ext _ (fun j => S (cnt (below (E (n + j))) t))) by (intros; apply Q; lia). now apply leaves_step. }
        destruct (Nat.eq_dec i n) as [->|Hne].
        -- rewrite set_nth_eq by lia. rewrite Nat.sub_diag. unfold Gain. rewrite LQ by lia. cbn [length]. lia.
        -- rewrite set_nth_neq by lia. destruct (i - n) as [|k] eqn:Ek; [lia|]. unfold Gain. rewrite !LQ by lia. cbn [length]. lia.
    + apply below_R_false in Ev. rewrite Hc. destruct (Nat.leb m (S n)) eqn:L; [discriminate|]. apply Nat.leb_gt in L.
      intros H. apply IH in H; auto. destruct H as (H1 & H2). split; [exact H1|]. intros i Hi. rewrite H2 by exact Hi. f_equal. f_equal.
      assert (forall s, (s <= v)%R -> cnt (below s) t = 0) as Q.
      { intros s Hs. apply cnt_zero. eapply Forall_impl; [|exact Ht]. cbn. intros a Ha. apply below_R_false. lra. }
      assert (cnt (below (E n)) (v :: t) = 0) as Q0. { rewrite cnt_cons, Q by exact Ev. now rewrite (proj2 (below_R_false _ _) Ev). }
      assert (forall k, Leaves (fun j => cnt (below (E (n + j))) (v :: t)) (S k) = S (Leaves (fun j => cnt (below (E (S n + j))) t) k)) as LQ.
      { apply leaves_skip; [now rewrite Nat.add_0_r|]. intros j. replace (n + S j) with (S n + j) by lia. rewrite cnt_cons.
        destruct (below (E (S n + j)) v) eqn:B; [now left|right]. apply below_R_false in B. now rewrite Q. }
      destruct (Nat.ltb i n) eqn:Li.
      * apply Nat.ltb_lt in Li. now rewrite (proj2 (Nat.ltb_lt i (S n))) by lia.
      * apply Nat.ltb_ge in Li. destruct (Nat.eq_dec i n) as [->|Hne].
        -- rewrite (proj2 (Nat.ltb_lt n (S n))) by lia. rewrite Nat.sub_diag. unfold Gain. cbn [Leaves]. rewrite Nat.add_0_r, Q0. lia.
        -- rewrite (proj2 (Nat.ltb_ge i (S n))) by lia. destruct (i - n) as [|k] eqn:Ek; [lia|]. replace (i - S n) with k by lia.
           unfold Gain. rewrite LQ. destruct k as [|k]; [|rewrite LQ]; cbn [Leaves length]; rewrite ?Nat.add_0_r, ?Q0; lia.
Qed.
End Loop.

Local Open Scope R_scope.
Lemma holds_cnt (P : R -> Prop) f l : (forall x, f x = true <-> P x) -> Holds P l (cnt f l).
Proof.
  intros H. induction l as [|x l IH]; [constructor|]. rewrite cnt_cons. destruct (f x) eqn:E; cbn; constructor; auto.
  - now apply H.
  - intros Q. apply H in Q. congruence.
Qed.
Lemma holds_fun P l k k' : Holds P l k -> Holds P l k' -> k = k'.
Proof. intros H. revert k'. induction H; intros k' H'; inversion H'; subst; auto; try contradiction. Qed.
Lemma holds_below t l : Holds (fun v => v < t) l (cnt (below t) l).
Proof. apply holds_cnt. intros. apply below_R. Qed.
Lemma atleast_R t v : atleast t v = true <-> t <= v.
Proof. unfold atleast. rewrite negb_true_iff. apply below_R_false. Qed.
Lemma holds_atleast t l : Holds (fun v => t <= v) l (cnt (atleast t) l).
Proof. apply holds_cnt. intros. apply atleast_R. Qed.

Lemma sorted_R (c : list R) : StronglySorted Rle (np_sort c).
Proof. apply StronglySorted_R, np_sort_ascending, notnan_R. Qed.

Lemma head_least (c : list R) : c <> [] -> exists a, head_opt (np_sort c) = Some a /\ Least a c.
Proof.
  intros H. pose proof (np_sort_perm c) as P. pose proof (sorted_R c) as S. destruct (np_sort c) as [|a t] eqn:E; [apply Permutation_sym, Permutation_nil in P; congruence|].
  exists a. split; [reflexivity|]. split; [apply (Permutation_in _ (Permutation_sym P)); now left|]. intros x Hx. apply (Permutation_in _ P) in Hx.
  inversion S as [|? ? _ Q]; subst. destruct Hx as [->|Hx]; [lra|]. rewrite Forall_forall in Q. now apply Q.
Qed.
Lemma sorted_last (t : list R) a : StronglySorted Rle t -> last_opt t = Some a -> forall x, In x t -> x <= a.
Proof.
  unfold last_opt. intros S H x Hx. destruct (@exists_last _ t) as (p & b & ->); [now destruct t|].
  rewrite app_length in H. cbn in H. replace (length p + 1 - 1)%nat with (length p) in H by lia. rewrite nth_error_app2, Nat.sub_diag in H by lia. injection H as ->.
  apply in_app_iff in Hx. destruct Hx as [Hx|[->|[]]]; [|lra].
  clear - S Hx. induction p as [|y p IH]; [easy|]. inversion S as [|? ? S' Q]; subst. destruct Hx as [->|Hx]; [|auto].
  rewrite Forall_forall in Q. apply Q, in_app_iff. right. now left.
Qed.
Lemma last_greatest (c : list R) : c <> [] -> exists a, last_opt (np_sort c) = Some a /\ Greatest a c.
Proof.
  intros H. pose proof (np_sort_perm c) as P. pose proof (sorted_R c) as S.
  destruct (last_opt (np_sort c)) as [a|] eqn:E.
  - exists a. split; [reflexivity|]. split.
    + apply (Permutation_in _ (Permutation_sym P)). now apply nth_error_In in E.
    + intros x Hx. apply (Permutation_in _ P) in Hx. eapply sorted_last; eauto.
  - apply nth_error_None in E. destruct (np_sort c); [apply Permutation_sym, Permutation_nil in P; congruence|cbn in E; lia].
Qed.
Lemma least_app a b c d lo : Least a c -> Least b d -> Least lo (c ++ d) -> nmin2 a b = lo.
Proof.
  intros (A1 & A2) (B1 & B2) (L1 & L2). assert (lo <= a) by (apply L2, in_app_iff; auto). assert (lo <= b) by (apply L2, in_app_iff; auto).
  assert (a <= lo \/ b <= lo) by (apply in_app_iff in L1; destruct L1; [left|right]; auto).
  unfold nmin2. destruct (nlt b a) eqn:E; [apply nlt_R in E|apply nlt_R_false in E]; lra.
Qed.
Lemma greatest_app a b c d hi : Greatest a c -> Greatest b d -> Greatest hi (c ++ d) -> nmax2 a b = hi.
Proof.
  intros (A1 & A2) (B1 & B2) (L1 & L2). assert (a <= hi) by (apply L2, in_app_iff; auto). assert (b <= hi) by (apply L2, in_app_iff; auto).
  assert (hi <= a \/ hi <= b) by (apply in_app_iff in L1; destruct L1; [left|right]; auto).
  unfold nmax2. destruct (nlt a b) eqn:E; [apply nlt_R in E|apply nlt_R_false in E]; lra.
Qed.

Lemma grid_edge lo hi m i : (i <= m)%nat -> nth i (linspace lo hi (S m)) 0 = Edge lo hi m i.
Proof.
  intros Hi. unfold Edge. destruct m as [|m].
  - replace i with 0%nat by lia. cbn. lra.
  - rewrite linspace_nth by lia. replace (INR (S (S m)) - 1) with (INR (S m)); [reflexivity|]. rewrite (S_INR (S m)). lra.
Qed.
Lemma edge_mono lo hi m i j : lo <= hi -> (i <= j)%nat -> Edge lo hi m i <= Edge lo hi m j.
Proof.
  intros H Hij. unfold Edge. apply Rplus_le_compat_l. apply Rmult_le_compat_r; [|now apply le_INR].
  destruct m as [|m]; [cbn; unfold Rdiv; rewrite Rinv_0; lra|]. apply Rmult_le_pos; [lra|]. left. apply Rinv_0_lt_compat. apply lt_0_INR. lia.
Qed.
Lemma edge_strict lo hi m i : lo < hi -> (0 < m)%nat -> Edge lo hi m i < Edge lo hi m (S i).
Proof.
  intros H Hm. unfold Edge. rewrite S_INR. assert (0 < (hi - lo) / INR m); [|lra]. apply Rmult_lt_0_compat; [lra|]. apply Rinv_0_lt_compat. now apply lt_0_INR.
Qed.
Lemma edge_0 lo hi m : Edge lo hi m 0 = lo.
Proof. unfold Edge. cbn. lra. Qed.
Lemma edge_m lo hi m : (0 < m)%nat -> Edge lo hi m m = hi.
Proof. intros H. unfold Edge. field. apply not_0_INR. lia. Qed.

(** The loop over one curve, with the endpoints of [histograms]. *)
Section Curve.
Variables (lo hi : R) (m : nat).
Hypothesis Hlh : lo <= hi.
Let e := linspace lo hi (S m).
Let He : length e = S m.
Proof. apply linspace_length. Qed.
Let Hmono : forall i j, (i <= j <= m)%nat -> nth i e 0 <= nth j e 0.
Proof. intros i j H. unfold e. rewrite !grid_edge by lia. apply edge_mono; [exact Hlh|lia]. Qed.

Lemma counts_raises (c : list R) : c <> [] -> Forall (fun x => lo <= x) c ->
  (hist_counts c e m = Raise RuntimeError \/ exists k, hist_counts c e m = Ok k) /\
  (hist_counts c e m = Raise RuntimeError <-> forall j, (j < m)%nat -> (m - j <= cnt (atleast (Edge lo hi m j)) c)%nat).
Proof.
  intros Hc Hl. unfold hist_counts. destruct (Nat.eq_dec m 0) as [Hm|Hm].
  - destruct (np_sort c) as [|v t] eqn:Ec; [pose proof (np_sort_perm c) as P; rewrite Ec in P; apply Permutation_sym, Permutation_nil in P; congruence|].
    cbn [hist_loop]. rewrite (e_nth e m He) by lia. destruct (nlt v _); cbn; rewrite map_length, seq_length, Hm; cbn; (split; [auto|]; split; [|easy]; intros _ j Hj; lia).
  - destruct (loop_raises e m He Hmono (np_sort c) (sorted_R c) 0 (map Z.of_nat (seq 0 m))) as (H1 & H2); [lia|now rewrite map_length, seq_length|].
    split; [exact H1|]. rewrite H2. split; intros H j Hj.
    + rewrite (cnt_perm _ _ _ (np_sort_perm c)). rewrite <- grid_edge by lia. apply H. lia.
    + fold e. unfold e. rewrite grid_edge by lia. rewrite <- (cnt_perm _ _ _ (np_sort_perm c)). apply H. lia.
Qed.
Lemma counts_ok (c : list R) k : c <> [] -> Forall (fun x => lo <= x) c -> hist_counts c e m = Ok k ->
  (0 < m)%nat /\ length k = m /\ forall i, (i < m)%nat -> nth i k 0%Z = (Z.of_nat i + Z.of_nat (Gain (fun j => cnt (below (Edge lo hi m j)) c) (length c) i))%Z.
Proof.
  intros Hc Hl H. destruct (Nat.eq_dec m 0) as [Hm|Hm].
  { destruct (counts_raises c Hc Hl) as (_ & Q). rewrite (proj2 Q) in H; [discriminate|]. intros; lia. }
  split; [lia|]. unfold hist_counts in H. apply (loop_counts e m He Hmono) in H; [|apply sorted_R|lia|now rewrite map_length, seq_length].
  destruct H as (H1 & H2). split; [exact H1|]. intros i Hi. rewrite H2 by exact Hi. cbn [Nat.ltb Nat.leb]. rewrite Nat.sub_0_r. f_equal.
  - rewrite (nth_map_in _ _ _ 0%Z 0%nat) by now rewrite seq_length. now rewrite seq_nth.
  - f_equal. rewrite <- (Permutation_length (np_sort_perm c)).
    assert (forall i, (i < m)%nat -> Leaves (fun j => cnt (below (nth (0 + j) e 0)) (np_sort c)) i = Leaves (fun j => cnt (below (Edge lo hi m j)) c) i) as Q.
    { intros i' Hi'. apply leaves_ext. intros j Hj. cbn [plus]. unfold e. rewrite grid_edge by lia. symmetry. apply cnt_perm, np_sort_perm. }
    unfold Gain. rewrite Q by exact Hi. destruct i as [|i]; [reflexivity|]. now rewrite Q by lia.
Qed.
Lemma bins_full (c : list R) : (forall i, (i < m)%nat -> exists v, In v c /\ InBin (Edge lo hi m) m i v) ->
  forall j, (j < m)%nat -> (m - j <= cnt (atleast (Edge lo hi m j)) c)%nat.
Proof.
  intros H j Hj. remember (m - j - 1)%nat as d eqn:Ed. revert j Hj Ed. induction d as [|d IH]; intros j Hj Ed.
  - replace (m - j)%nat with 1%nat by lia. destruct (H j Hj) as (v & Hv & Hb & _). apply in_split in Hv. destruct Hv as (p & q & ->).
    unfold cnt. rewrite filter_app, app_length. cbn. rewrite (proj2 (atleast_R _ _) Hb). cbn. lia.
  - specialize (IH (S j) ltac:(lia) ltac:(lia)). destruct (H j Hj) as (v & Hv & Hb & [Hlt|[HS _]]); [|lia].
    assert (cnt (atleast (Edge lo hi m (S j))) c < cnt (atleast (Edge lo hi m j)) c)%nat; [|lia].
    clear IH Ed H. apply in_split in Hv. destruct Hv as (p & q & ->). unfold cnt. rewrite !filter_app, !app_length. cbn [filter].
    rewrite (proj2 (atleast_R _ _) Hb). replace (atleast (Edge lo hi m (S j)) v) with false.
    2:{ symmetry. unfold atleast. apply negb_false_iff. now apply below_R. }
    assert (forall x, atleast (Edge lo hi m (S j)) x = true -> atleast (Edge lo hi m j) x = true) as M.
    { intros x Hx. apply atleast_R in Hx. apply atleast_R. pose proof (edge_mono lo hi m j (S j) Hlh ltac:(lia)). lra. }
    pose proof (cnt_mono _ _ p M). pose proof (cnt_mono _ _ q M). unfold cnt in *. cbn [length]. lia.
Qed.
End Curve.
