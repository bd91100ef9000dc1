(** C143: the histogram helper of the curve comparison, [Compare.__histograms]. *)
From Coq Require Import List ZArith Bool Arith Lia QArith Reals Lra Permutation.
From Verif Require Import Base M_Compare M_Quad M_Hist S_Hist P_Order P_Step P_TrimStat P_Hist.
Import ListNotations.
Local Open Scope R_scope.

(** [Overruns]: for every j < m at least m - j values are at or above endpoint j. *)
Definition Overruns (lo hi : R) (m : nat) (c : list R) : Prop :=
  forall j, (j < m)%nat -> exists k, Holds (fun v => Edge lo hi m j <= v) c k /\ (m - j <= k)%nat.

Lemma holds_between s t c : Holds (fun v => s <= v < t) c (cnt (fun v => below t v && atleast s v) c).
Proof. apply holds_cnt. intros x. rewrite andb_true_iff, below_R, atleast_R. tauto. Qed.
Lemma overruns_cnt lo hi m c : Overruns lo hi m c <-> forall j, (j < m)%nat -> (m - j <= cnt (atleast (Edge lo hi m j)) c)%nat.
Proof.
  split; intros H j Hj.
  - destruct (H j Hj) as (k & Hk & Hle). now rewrite (holds_fun _ _ _ _ (holds_atleast _ _) Hk).
  - eexists. split; [apply holds_atleast|]. now apply H.
Qed.
Lemma hist_R c1 c2 (m : nat) lo hi : c1 <> [] -> c2 <> [] -> Least lo (c1 ++ c2) -> Greatest hi (c1 ++ c2) ->
  lo <= hi /\ Forall (fun x => lo <= x) c1 /\ Forall (fun x => lo <= x) c2 /\
  histograms c1 c2 (Z.of_nat m) =
    let! k1 := hist_counts c1 (linspace lo hi (S m)) m in let! k2 := hist_counts c2 (linspace lo hi (S m)) m in Ok (linspace lo hi (S m), k1, k2).
Proof.
  intros H1 H2 HL HG. split; [|split; [|split]].
  - destruct HL as (_ & L). destruct HG as (G & _). now apply L.
  - apply Forall_forall. intros x Hx. apply HL, in_app_iff. now left.
  - apply Forall_forall. intros x Hx. apply HL, in_app_iff. now right.
  - unfold histograms. destruct (head_least c1 H1) as (a1 & -> & A1). destruct (head_least c2 H2) as (a2 & -> & A2).
    destruct (last_greatest c1 H1) as (b1 & -> & B1). destruct (last_greatest c2 H2) as (b2 & -> & B2).
    rewrite (least_app _ _ _ _ _ A1 A2 HL), (greatest_app _ _ _ _ _ B1 B2 HG).
    replace (Z.of_nat m + 1 <? 0)%Z with false by (symmetry; apply Z.ltb_ge; lia).
    replace (Z.to_nat (Z.of_nat m + 1)) with (S m) by lia. now rewrite Nat2Z.id.
Qed.

(** C143. When the "impossible" RuntimeError is raised: exactly when one of the two curves overruns. *)
Theorem C143_raises : forall c1 c2 (m : nat) lo hi, c1 <> [] -> c2 <> [] -> Least lo (c1 ++ c2) -> Greatest hi (c1 ++ c2) ->
  (histograms c1 c2 (Z.of_nat m) = Raise RuntimeError <-> Overruns lo hi m c1 \/ Overruns lo hi m c2) /\
  (histograms c1 c2 (Z.of_nat m) = Raise RuntimeError \/ exists r, histograms c1 c2 (Z.of_nat m) = Ok r).
Proof.
  intros c1 c2 m lo hi H1 H2 HL HG. destruct (hist_R c1 c2 m lo hi H1 H2 HL HG) as (Hle & F1 & F2 & ->).
  destruct (counts_raises lo hi m Hle c1 H1 F1) as (A1 & B1). destruct (counts_raises lo hi m Hle c2 H2 F2) as (A2 & B2). rewrite !overruns_cnt, <- B1, <- B2.
  destruct A1 as [->|(k1 & ->)]; cbn [bind]; [split; [split|]; auto|]. destruct A2 as [->|(k2 & ->)]; cbn [bind]; [split; [split|]; auto|].
  split; [|right; eauto]. split; [discriminate|]. intros [|]; discriminate.
Qed.
Print Assumptions C143_raises.

(** C143. In particular whenever every bin holds a value of one of the curves. *)
Theorem C143_full_bins : forall c1 c2 (m : nat) lo hi c, c1 <> [] -> c2 <> [] -> Least lo (c1 ++ c2) -> Greatest hi (c1 ++ c2) ->
  c = c1 \/ c = c2 -> (forall i, (i < m)%nat -> exists v, In v c /\ InBin (Edge lo hi m) m i v) ->
  histograms c1 c2 (Z.of_nat m) = Raise RuntimeError.
Proof.
  intros c1 c2 m lo hi c H1 H2 HL HG Hc Hb. apply (C143_raises c1 c2 m lo hi H1 H2 HL HG). destruct (hist_R c1 c2 m lo hi H1 H2 HL HG) as (Hle & _).
  destruct Hc as [<-|<-]; [left|right]; apply overruns_cnt; now apply bins_full.
Qed.
Print Assumptions C143_full_bins.
Example C143_full_bins_case : histograms [1; 2; 3; 4; 5; 6] [3] 2 = Raise RuntimeError.
Proof.
  apply (C143_full_bins [1; 2; 3; 4; 5; 6] [3] 2 1 6 [1; 2; 3; 4; 5; 6]); try discriminate; auto.
  - split; [now left|]. cbn. intros x Hx. decompose [or] Hx; subst; lra || easy.
  - split; [cbn; tauto|]. cbn. intros x Hx. decompose [or] Hx; subst; lra || easy.
  - intros i Hi. assert (i = 0 \/ i = 1)%nat as [->| ->] by lia; unfold InBin, Edge; cbn.
    + exists 1. split; [tauto|]. split; [lra|left; lra].
    + exists 6. split; [tauto|]. split; [lra|right; split; [reflexivity|lra]].
Qed.

(** C143. What is returned otherwise: the endpoints, and in every bin the number of the bin plus the values the loop counts there. *)
Theorem C143_counts : forall c1 c2 (m : nat) lo hi e k1 k2 B1 B2, c1 <> [] -> c2 <> [] -> Least lo (c1 ++ c2) -> Greatest hi (c1 ++ c2) ->
  (forall i, Holds (fun v => v < Edge lo hi m i) c1 (B1 i)) -> (forall i, Holds (fun v => v < Edge lo hi m i) c2 (B2 i)) ->
  histograms c1 c2 (Z.of_nat m) = Ok (e, k1, k2) ->
  length e = S m /\ (forall i, (i <= m)%nat -> nth i e 0 = Edge lo hi m i) /\ length k1 = m /\ length k2 = m /\
  forall i, (i < m)%nat -> nth i k1 0%Z = (Z.of_nat i + Z.of_nat (Gain B1 (length c1) i))%Z /\
                           nth i k2 0%Z = (Z.of_nat i + Z.of_nat (Gain B2 (length c2) i))%Z.
Proof.
  intros c1 c2 m lo hi e k1 k2 B1 B2 H1 H2 HL HG Q1 Q2. destruct (hist_R c1 c2 m lo hi H1 H2 HL HG) as (Hle & F1 & F2 & ->).
  destruct (hist_counts c1 _ m) as [x1|] eqn:E1; [|discriminate]. destruct (hist_counts c2 _ m) as [x2|] eqn:E2; [|discriminate].
  cbn [bind]. intros [= <- <- <-]. destruct (counts_ok lo hi m Hle c1 x1 H1 F1 E1) as (_ & L1 & N1). destruct (counts_ok lo hi m Hle c2 x2 H2 F2 E2) as (_ & L2 & N2).
  assert (G : forall c B, (forall i, Holds (fun v => v < Edge lo hi m i) c (B i)) -> forall n i, Gain B n i = Gain (fun j => cnt (below (Edge lo hi m j)) c) n i).
  { intros c B HB n i. assert (forall k, Leaves B k = Leaves (fun j => cnt (below (Edge lo hi m j)) c) k) as Q.
    { intros k. apply leaves_ext. intros j _. apply (holds_fun _ _ _ _ (HB j)), holds_below. }
    unfold Gain. rewrite Q. destruct i; [reflexivity|]. now rewrite Q. }
  split; [apply P_Ols.linspace_length|]. split; [intros; now apply grid_edge|]. split; [exact L1|]. split; [exact L2|].
  intros i Hi. rewrite N1, N2 by exact Hi. now rewrite (G c1 B1 Q1), (G c2 B2 Q2).
Qed.
Print Assumptions C143_counts.

(** C143. So bin 0 is always 0, and bin i + 1 holds i + 1 plus at most the values of bin i, one fewer unless there were none. *)
Theorem C143_shifted : forall c1 c2 (m : nat) lo hi e k1 k2, c1 <> [] -> c2 <> [] -> Least lo (c1 ++ c2) -> Greatest hi (c1 ++ c2) ->
  histograms c1 c2 (Z.of_nat m) = Ok (e, k1, k2) -> forall c k, (c, k) = (c1, k1) \/ (c, k) = (c2, k2) ->
  nth 0 k 0%Z = 0%Z /\
  forall i n, (S i < m)%nat -> Holds (fun v => Edge lo hi m i <= v < Edge lo hi m (S i)) c n ->
    (Z.of_nat (S i) <= nth (S i) k 0 <= Z.of_nat (S i) + Z.of_nat (n - 1))%Z.
Proof.
  intros c1 c2 m lo hi e k1 k2 H1 H2 HL HG H c k Hk.
  destruct (C143_counts c1 c2 m lo hi e k1 k2 (fun j => cnt (below (Edge lo hi m j)) c1) (fun j => cnt (below (Edge lo hi m j)) c2) H1 H2 HL HG
    ltac:(intros; apply holds_below) ltac:(intros; apply holds_below) H) as (_ & _ & L1 & L2 & N).
  destruct (hist_R c1 c2 m lo hi H1 H2 HL HG) as (Hle & F1 & F2 & _).
  assert (Q : length k = m /\ Forall (fun x => lo <= x) c /\ forall i, (i < m)%nat -> nth i k 0%Z = (Z.of_nat i + Z.of_nat (Gain (fun j => cnt (below (Edge lo hi m j)) c) (length c) i))%Z).
  { destruct Hk as [[= -> ->]|[= -> ->]]; (split; [assumption|split; [assumption|]]); intros i Hi; apply N; exact Hi. }
  clear N L1 L2 F1 F2 Hk. destruct Q as (L & Fc & N). split.
  - destruct (Nat.eq_dec m 0) as [->|Hm]; [now destruct k|]. rewrite N by lia. unfold Gain. cbn [Leaves]. rewrite (cnt_zero (below _) c); [now rewrite Nat.min_0_r|].
    eapply Forall_impl; [|exact Fc]. cbn. intros a Ha. apply below_R_false. now rewrite edge_0.
  - intros i n Hi Hn. rewrite N by exact Hi. set (B := fun j => cnt (below (Edge lo hi m j)) c).
    assert (B (S i) = B i + n)%nat as HB.
    { unfold B. rewrite (holds_fun _ _ _ _ Hn (holds_between _ _ c)).
      pose proof (edge_mono lo hi m i (S i) Hle ltac:(lia)) as Hm. clear - Hm. induction c as [|x c IH]; [reflexivity|]. rewrite !cnt_cons. unfold atleast in *.
      destruct (below (Edge lo hi m i) x) eqn:A, (below (Edge lo hi m (S i)) x) eqn:C; cbn [andb negb]; try lia.
      apply below_R in A. apply below_R_false in C. lra. }
    assert (B i <= Leaves B i)%nat. { destruct i; cbn [Leaves]; lia. }
    unfold Gain. cbn [Leaves]. lia.
Qed.
Print Assumptions C143_shifted.

(** C143. The pair of counts it returns is never the pair of histograms (unless all the values of both curves are equal). *)
Theorem C143_never_right_refuted : forall c1 c2 (m : nat) lo hi e k1 k2, c1 <> [] -> c2 <> [] -> Least lo (c1 ++ c2) -> Greatest hi (c1 ++ c2) -> lo < hi ->
  histograms c1 c2 (Z.of_nat m) = Ok (e, k1, k2) -> ~ (BinCounts (Edge lo hi m) m c1 k1 /\ BinCounts (Edge lo hi m) m c2 k2).
Proof.
  intros c1 c2 m lo hi e k1 k2 H1 H2 HL HG Hlt H (Q1 & Q2).
  assert (exists c k, ((c, k) = (c1, k1) \/ (c, k) = (c2, k2)) /\ In lo c) as (c & k & Hk & Hin).
  { destruct HL as (HL & _). apply in_app_iff in HL. destruct HL; eauto. }
  pose proof (C143_shifted c1 c2 m lo hi e k1 k2 H1 H2 HL HG H c k Hk) as (_ & S).
  assert (Q : BinCounts (Edge lo hi m) m c k) by (destruct Hk as [[= -> ->]|[= -> ->]]; assumption). clear Q1 Q2. destruct Q as (_ & Q).
  rewrite (C143_full_bins c1 c2 m lo hi c H1 H2 HL HG) in H; [discriminate|destruct Hk as [[= -> ->]|[= -> ->]]; auto|].
  intros i Hi. destruct i as [|i].
  - exists lo. split; [exact Hin|]. split; [rewrite edge_0; lra|]. left. rewrite <- (edge_0 lo hi m) at 1. now apply edge_strict.
  - destruct (Q (Datatypes.S i) Hi) as (n & Hn & En).
    destruct (S i _ Hi (holds_between _ _ c)) as (Hge & _).
    destruct Hn as [|x l n' Hx _|x l n' Hx Hn]; [cbn in En; lia|exists x; split; [now left|exact Hx]|].
    assert (exists v, In v l /\ InBin (Edge lo hi m) m (Datatypes.S i) v) as (v & Hv & Hb); [|exists v; split; [now right|exact Hb]].
    assert (0 < n')%nat by lia. clear - Hn H0. induction Hn as [|y l k Hy Hn IH|y l k Hy Hn IH]; [lia|exists y; split; [now left|exact Hy]|].
    destruct IH as (v & Hv & Hb); [exact H0|]. exists v. split; [now right|exact Hb].
Qed.
Print Assumptions C143_never_right_refuted.
(** Over the rationals; the bin counts are 3, 0, 0, 1 and 2, 0, 0, 0. *)
Example C143_case_Q : @histograms Q Num_Q [0; 9; 2; 1]%Q [2; 1]%Q 4 = Ok ([0; 9 # 4; 9 # 2; 27 # 4; 9]%Q, [0; 3; 2; 3]%Z, [0; 2; 2; 3]%Z).
Proof. vm_compute. reflexivity. Qed.
(** The same curves over the reals meet the hypotheses above. *)
Example C143_case : Least 0 ([0; 9; 2; 1] ++ [2; 1]) /\ Greatest 9 ([0; 9; 2; 1] ++ [2; 1]) /\ exists e k1 k2, histograms [0; 9; 2; 1] [2; 1] 4 = Ok (e, k1, k2).
Proof.
  assert (A : Least 0 ([0; 9; 2; 1] ++ [2; 1])). { split; [now left|]. cbn. intros x Hx. decompose [or] Hx; subst; lra || easy. }
  assert (B : Greatest 9 ([0; 9; 2; 1] ++ [2; 1])). { split; [cbn; tauto|]. cbn. intros x Hx. decompose [or] Hx; subst; lra || easy. }
  split; [exact A|]. split; [exact B|]. destruct (C143_raises [0; 9; 2; 1] [2; 1] 4 0 9) as (H & [E|(((e & k1) & k2) & E)]); try discriminate; auto; [|eauto].
  apply H in E. exfalso.
  destruct E as [E|E]; destruct (E 1%nat ltac:(lia)) as (k & Hk & Hle); unfold Edge in Hk; cbn in Hk;
    repeat (match goal with X : Holds _ _ _ |- _ => inversion X; subst; clear X end; try lra); lia.
Qed.

(** C143. Empty curves and negative numbers of bins. *)
Theorem C143_errors : forall (c1 c2 : list R) n,
  (c1 = [] \/ c2 = [] -> histograms c1 c2 n = Raise IndexError) /\
  (c1 <> [] -> c2 <> [] -> (n < -1)%Z -> histograms c1 c2 n = Raise ValueError) /\
  (c1 <> [] -> c2 <> [] -> histograms c1 c2 (-1) = Raise IndexError) /\
  (c1 <> [] -> c2 <> [] -> histograms c1 c2 0 = Raise RuntimeError /\ histograms c1 c2 1 = Raise RuntimeError).
Proof.
  intros c1 c2 n. split; [|split; [|split]].
  - unfold histograms. intros [->| ->]; [reflexivity|]. now destruct (head_opt (np_sort c1)).
  - intros H1 H2 Hn. unfold histograms. destruct (head_least c1 H1) as (a1 & -> & A1). destruct (head_least c2 H2) as (a2 & -> & A2).
    destruct (last_greatest c1 H1) as (b1 & -> & B1). destruct (last_greatest c2 H2) as (b2 & -> & B2). now rewrite (proj2 (Z.ltb_lt _ _)) by lia.
  - intros H1 H2. unfold histograms. destruct (head_least c1 H1) as (a1 & Ea & A1). rewrite Ea. destruct (head_least c2 H2) as (a2 & -> & A2).
    destruct (last_greatest c1 H1) as (b1 & -> & B1). destruct (last_greatest c2 H2) as (b2 & -> & B2). cbn [Z.ltb Z.compare Z.add Z.opp Z.pos_sub Z.to_nat].
    unfold hist_counts. destruct (np_sort c1); [discriminate|]. reflexivity.
  - intros H1 H2. assert (exists lo hi, Least lo (c1 ++ c2) /\ Greatest hi (c1 ++ c2)) as (lo & hi & HL & HG).
    { destruct (head_least (c1 ++ c2)) as (a & _ & A); [now destruct c1|]. destruct (last_greatest (c1 ++ c2)) as (b & _ & B); [now destruct c1|]. eauto. }
    split; [apply (C143_raises c1 c2 0 lo hi H1 H2 HL HG)|apply (C143_raises c1 c2 1 lo hi H1 H2 HL HG)]; left; apply overruns_cnt; intros j Hj; [lia|].
    replace j with 0%nat by lia. destruct (hist_R c1 c2 1 lo hi H1 H2 HL HG) as (_ & F1 & _ & _). destruct F1 as [|x l Hx _]; [easy|].
    rewrite cnt_cons, edge_0. rewrite (proj2 (atleast_R _ _) Hx). lia.
Qed.
Print Assumptions C143_errors.
(** The three errors on the curves 1, 2 and 3. *)
Example C143_errors_case : histograms [] [3] 5 = Raise IndexError /\ histograms [1; 2] [3] (-4) = Raise ValueError /\
  histograms [1; 2] [3] (-1) = Raise IndexError /\ histograms [1; 2] [3] 1 = Raise RuntimeError.
Proof.
  splits; [apply (proj1 (C143_errors [] [3] 5)); now left|apply (proj1 (proj2 (C143_errors [1; 2] [3] (-4)))); easy|apply (proj1 (proj2 (proj2 (C143_errors [1; 2] [3] 0)))); easy|apply (proj2 (proj2 (proj2 (C143_errors [1; 2] [3] 0)))); easy].
Qed.
