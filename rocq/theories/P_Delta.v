(** Proofs about the rigidity loop, the parallel stores and the automatic limit. *)
From Coq Require Import List ZArith Bool Arith Lia Reals Lra Sorting.Permutation.
From Verif Require Import Base S_Order S_EigVals S_Trim M_Step M_Quad M_Loops S_Quad S_Loops P_Order P_Step P_EigVals P_TrimStat P_TrimFull P_Quad P_Ols P_Loops.
Import ListNotations.
Local Notation length := List.length.

Section DeltaGeneric.
Context {F : Type} {N : Num F}.
Variables (size : Z) (v : nat -> F).
(** State after m + 1 passes. *)
Fixpoint d_after (m : nat) : dstate :=
  match m with O => delta_init size (v 0%nat) | S m' => delta_pass size (v m) (d_after m') end.
Lemma d_after_k m : d_k (d_after m) = (Z.of_nat m + 1)%Z.
Proof. induction m as [|m IH]; [reflexivity|]. cbn [d_after delta_pass d_k]. rewrite IH. lia. Qed.
Variables (sample : nat -> outcome F) (mx mn : Z) (tol : F).
Hypothesis Hs : forall i, sample i = Done (v i).
Lemma delta_loop_done fuel : forall j, (0 < fuel)%nat -> (mx <= Z.of_nat (fuel + j) + 1)%Z ->
  exists m, delta_loop fuel size sample mx mn tol (S j) (d_after j) = Done (d_after m) /\ (j < m)%nat /\
    (Z.of_nat m + 1 <= Z.max (Z.of_nat j + 2) mx)%Z /\ delta_stop size mx mn tol (d_after m) = true /\
    forall i, (j < i < m)%nat -> delta_stop size mx mn tol (d_after i) = false.
Proof.
  induction fuel as [|fuel IH]; intros j H0 H; [lia|]. cbn [delta_loop]. rewrite Hs.
  change (delta_pass size (v (S j)) (d_after j)) with (d_after (S j)).
  destruct (delta_stop size mx mn tol (d_after (S j))) eqn:E.
  - exists (S j). repeat split; auto; lia.
  - assert (Hlt : (Z.of_nat (S j) + 1 < mx)%Z).
    { unfold delta_stop in E. rewrite d_after_k in E. apply orb_false_iff in E as (E & _). apply Z.leb_gt in E. exact E. }
    destruct (IH (S j) ltac:(lia) ltac:(lia)) as (m & Hm & H1 & H2 & H3 & H4). exists m. repeat split; auto; try lia.
    intros i Hi. destruct (Nat.eq_dec i (S j)) as [->|]; [exact E|]. apply H4. lia.
Qed.
Lemma delta_run_done : exists m, delta_run size sample mx mn tol = Done (d_after m) /\ (1 <= m)%nat /\ (Z.of_nat m + 1 <= Z.max 2 mx)%Z /\
  ((Z.of_nat m + 1 < mx)%Z -> (mn < Z.of_nat m + 1)%Z /\ ((Z.of_nat m + 1) mod size = 0)%Z /\ spread_below (d_buf (d_after m)) tol = true) /\
  (forall i, (1 <= i < m)%nat -> (Z.of_nat i + 1 < mx)%Z /\
     ~ ((mn < Z.of_nat i + 1)%Z /\ ((Z.of_nat i + 1) mod size = 0)%Z /\ spread_below (d_buf (d_after i)) tol = true)).
Proof.
  unfold delta_run. rewrite Hs. change (delta_init size (v 0%nat)) with (d_after 0).
  destruct (delta_loop_done (Z.to_nat (Z.max 1 (mx - 1))) 0 ltac:(lia) ltac:(lia)) as (m & -> & H1 & H2 & H3 & H4).
  exists m. split; [reflexivity|]. split; [lia|]. split; [lia|]. split.
  - intros Hlt. unfold delta_stop in H3. rewrite d_after_k in H3.
    replace (mx <=? Z.of_nat m + 1)%Z with false in H3 by (symmetry; apply Z.leb_gt; lia). cbn [orb] in H3.
    apply andb_true_iff in H3 as (H3 & H5). apply andb_true_iff in H3 as (H3 & H6). apply Z.ltb_lt in H3. apply Z.eqb_eq in H6. auto.
  - intros i Hi. specialize (H4 i ltac:(lia)). unfold delta_stop in H4. rewrite d_after_k in H4.
    apply orb_false_iff in H4 as (H5 & H4). apply Z.leb_gt in H5. split; [exact H5|]. intros (A & B & C).
    rewrite C in H4. apply Z.ltb_lt in A. apply Z.eqb_eq in B. rewrite A, B in H4. discriminate.
Qed.
End DeltaGeneric.

Local Open Scope R_scope.
Section DeltaR.
Variables (size : Z) (v : nat -> R).
Hypothesis Hsize : (2 <= size)%Z.
Definition runmean (j : nat) : R := Rmean (map v (seq 0 j)).
Lemma seq0_S {A} (f : nat -> A) k : map f (seq 0 (S k)) = map f (seq 0 k) ++ [f k].
Proof. rewrite seq_S, map_app. reflexivity. Qed.
Lemma d_after_R m : d_c (d_after size v m) = 0 /\ d_mean (d_after size v m) = runmean (S m).
Proof.
  induction m as [|m (I1 & I2)].
  - cbn. split; [reflexivity|]. unfold runmean, Rmean. cbn. field.
  - cbn [d_after]. unfold delta_pass. cbn [d_c d_mean]. rewrite I1, I2, d_after_k. cbn [nsub ndiv nofZ Num_R]. rewrite kahan_R. cbn [fst snd].
    split; [reflexivity|]. unfold runmean. rewrite !Rmean_INR, !map_length, !seq_length. rewrite (seq0_S v (S m)), Rsum_app. cbn [Rsum].
    replace (IZR (Z.of_nat m + 1 + 1)) with (INR (S (S m))) by (rewrite INR_IZR_INZ; f_equal; lia).
    rewrite (S_INR (S m)). assert (0 < INR (S m)) by (apply lt_0_INR; lia). field. lra.
Qed.
Definition dinit : list R := set_nth (repeat 0 (Z.to_nat size)) 0 (v 0%nat).
Lemma d_after_ring m : d_buf (d_after size v m) = ring size dinit (fun j => runmean (Z.to_nat j)) 1 m.
Proof.
  induction m as [|m IH]; [reflexivity|]. cbn [ring]. rewrite <- IH.
  change (d_buf (d_after size v (S m))) with (set_nth (d_buf (d_after size v m)) (Z.to_nat ((d_k (d_after size v m) + 1) mod size)) (d_mean (d_after size v (S m)))).
  rewrite d_after_k. destruct (d_after_R (S m)) as (_ & ->). replace (Z.of_nat m + 1 + 1)%Z with (1 + Z.of_nat (S m))%Z by lia.
  f_equal. f_equal. lia.
Qed.
Lemma dinit_length : length dinit = Z.to_nat size.
Proof. unfold dinit. now rewrite set_nth_length, repeat_length. Qed.
Lemma dinit_nth i : nth i dinit 0 = if Nat.eqb i 0 then v 0%nat else 0.
Proof.
  unfold dinit. assert (E : exists s, Z.to_nat size = S s) by (exists (Z.to_nat size - 1)%nat; lia). destruct E as (s & ->).
  destruct i; cbn [repeat set_nth nth Nat.eqb]; [reflexivity|]. apply nth_repeat.
Qed.
(** Value standing for index [j] in the window of the last [size] indices. *)
Definition slot (j : Z) : R := if (1 <? j)%Z then runmean (Z.to_nat j) else if (j =? 0)%Z then v 0%nat else 0.
Lemma d_buf_perm m : (1 <= m)%nat -> Permutation (d_buf (d_after size v m)) (map (fun t => slot (Z.of_nat m + 1 - Z.of_nat t)) (seq 0 (Z.to_nat size))).
Proof.
  intros Hm. rewrite d_after_ring. etransitivity; [apply (ring_perm size ltac:(lia) dinit dinit_length _ 0 1%Z m)|].
  erewrite map_ext_in; [reflexivity|]. intros t Ht. apply in_seq in Ht. unfold content, slot.
  replace (1 + Z.of_nat m - Z.of_nat t)%Z with (Z.of_nat m + 1 - Z.of_nat t)%Z by lia. set (j := (Z.of_nat m + 1 - Z.of_nat t)%Z).
  destruct (1 <? j)%Z eqn:E; [reflexivity|]. rewrite dinit_nth. apply Z.ltb_ge in E.
  destruct (Z.eqb_spec j 0) as [E0|E0]; [rewrite E0, Z.mod_0_l by lia; reflexivity|].
  destruct (Nat.eqb_spec (Z.to_nat (j mod size)) 0) as [E1|E1]; [|reflexivity]. exfalso.
  pose proof (Z.mod_pos_bound j size ltac:(lia)). assert (E2 : (j mod size = 0)%Z) by lia. apply Z.mod_divide in E2; [|lia]. destruct E2 as (q & E2).
  assert (j = 1 \/ j < 0)%Z as [->|E3] by lia; [assert (q = 0 \/ q <= -1 \/ 1 <= q)%Z by lia; nia|].
  assert (- size < j)%Z by lia. assert (q <= -1)%Z by nia. nia.
Qed.
Lemma Rsum_map_zero {A} (f : A -> R) l : (forall x, In x l -> f x = 0) -> Rsum (map f l) = 0.
Proof. induction l as [|x l IH]; intros H; [reflexivity|]. cbn [map]. rewrite Rsum_cons, H, IH; [lra| |now left]. intros y Hy. apply H. now right. Qed.
Lemma Rsum_const c n : Rsum (repeat c n) = INR n * c.
Proof. induction n as [|n IH]; [cbn; lra|]. cbn [repeat]. rewrite Rsum_cons, IH, S_INR. lra. Qed.
(** The written part of the window, counted backwards from k = m + 1 down to 2. *)
Lemma window_sum m : (1 <= m)%nat -> Rsum (d_buf (d_after size v m)) =
  (if (Z.of_nat m + 1 <=? size)%Z
   then Rsum (map (fun t => runmean (m + 1 - t)) (seq 0 m)) + (if (Z.of_nat m + 1 <? size)%Z then runmean 1 else 0)
   else Rsum (map (fun t => runmean (m + 1 - t)) (seq 0 (Z.to_nat size)))).
Proof.
  intros Hm. rewrite (Rsum_perm _ _ (d_buf_perm m Hm)).
  assert (W : forall l, (forall t, In t l -> (t < m)%nat) -> map (fun t => slot (Z.of_nat m + 1 - Z.of_nat t)) l = map (fun t => runmean (m + 1 - t)) l).
  { intros l Hl. apply map_ext_in. intros t Ht. specialize (Hl t Ht). unfold slot.
    replace (1 <? Z.of_nat m + 1 - Z.of_nat t)%Z with true by (symmetry; apply Z.ltb_lt; lia). f_equal. lia. }
  destruct (Z.leb_spec (Z.of_nat m + 1) size) as [H|H].
  - replace (Z.to_nat size) with (m + (Z.to_nat size - m))%nat by lia. rewrite seq_app, map_app, Rsum_app. cbn [plus].
    rewrite W by (intros t Ht; apply in_seq in Ht; lia). f_equal.
    replace (Z.to_nat size - m)%nat with (S (Z.to_nat size - m - 1)) by lia. cbn [seq map]. rewrite Rsum_cons.
    replace (slot (Z.of_nat m + 1 - Z.of_nat m)) with 0 by (replace (Z.of_nat m + 1 - Z.of_nat m)%Z with 1%Z by lia; reflexivity).
    destruct (Z.ltb_spec (Z.of_nat m + 1) size) as [H1|H1].
    + replace (Z.to_nat size - m - 1)%nat with (S (Z.to_nat size - m - 2)) by lia. cbn [seq map]. rewrite Rsum_cons.
      replace (slot (Z.of_nat m + 1 - Z.of_nat (S m))) with (runmean 1).
      2:{ replace (Z.of_nat m + 1 - Z.of_nat (S m))%Z with 0%Z by lia. unfold slot, runmean, Rmean. cbn. field. }
      rewrite Rsum_map_zero; [lra|]. intros t Ht. apply in_seq in Ht. unfold slot.
      replace (1 <? Z.of_nat m + 1 - Z.of_nat t)%Z with false by (symmetry; apply Z.ltb_ge; lia).
      replace (Z.of_nat m + 1 - Z.of_nat t =? 0)%Z with false by (symmetry; apply Z.eqb_neq; lia). reflexivity.
    + replace (Z.to_nat size - m - 1)%nat with 0%nat by lia. cbn. lra.
  - rewrite W; [reflexivity|]. intros t Ht. apply in_seq in Ht. lia.
Qed.
Lemma d_buf_length m : length (d_buf (d_after size v m)) = Z.to_nat size.
Proof. rewrite d_after_ring. apply ring_length. apply dinit_length. Qed.
Lemma runmean_const d j : (1 <= j)%nat -> (forall i, (i < j)%nat -> v i = d) -> runmean j = d.
Proof.
  intros Hj H. unfold runmean. apply Rmean_const; [destruct j; [lia|discriminate]|]. apply Forall_forall. intros x Hx.
  apply in_map_iff in Hx as (i & <- & Hi). apply in_seq in Hi. apply H. lia.
Qed.
Lemma map_const_repeat {A} (f : nat -> A) c a n : (forall t, (a <= t < a + n)%nat -> f t = c) -> map f (seq a n) = repeat c n.
Proof.
  revert a. induction n as [|n IH]; intros a H; [reflexivity|]. cbn [seq map repeat]. rewrite H by lia. f_equal. apply IH. intros t Ht. apply H. lia.
Qed.
Lemma mean_const d m : (1 <= m)%nat -> (forall i, (i <= m)%nat -> v i = d) ->
  nmean (d_buf (d_after size v m)) = if (size <? Z.of_nat m + 1)%Z then d else if (Z.of_nat m + 1 =? size)%Z then d * (IZR size - 1) / IZR size
    else d * INR (m + 1) / IZR size.
Proof.
  intros Hm H. assert (P : 0 < IZR size) by (apply IZR_lt; lia).
  rewrite nmean_R, Rmean_INR, d_buf_length, window_sum by exact Hm.
  replace (INR (Z.to_nat size)) with (IZR size) by (rewrite INR_IZR_INZ; f_equal; lia).
  assert (M : forall j, (1 <= j <= m + 1)%nat -> runmean j = d) by (intros j Hj; apply runmean_const; [lia|intros; apply H; lia]).
  destruct (Z.leb_spec (Z.of_nat m + 1) size), (Z.ltb_spec (Z.of_nat m + 1) size), (Z.ltb_spec size (Z.of_nat m + 1)), (Z.eqb_spec (Z.of_nat m + 1) size); try lia.
  - rewrite (map_const_repeat _ d) by (intros t Ht; apply M; lia). rewrite Rsum_const, (M 1%nat) by lia. rewrite plus_INR. cbn [INR]. field. lra.
  - rewrite (map_const_repeat _ d) by (intros t Ht; apply M; lia). rewrite Rsum_const. rewrite <- e, plus_IZR, <- INR_IZR_INZ. field.
    pose proof (pos_INR m). lra.
  - rewrite (map_const_repeat _ d) by (intros t Ht; apply M; lia). rewrite Rsum_const.
    replace (INR (Z.to_nat size)) with (IZR size) by (rewrite INR_IZR_INZ; f_equal; lia). field. lra.
Qed.
End DeltaR.

(** Over exact reals every sample is computed. *)
Lemma delta_sample_R simpson g L (u : list R) draws : u <> [] -> (1 <= g)%nat ->
  exists v, forall i, delta_sample simpson g L u draws i = Done (v i).
Proof.
  intros Hu Hg. exists (fun i => match delta_sample simpson g L u draws i with Done x => x | _ => 0 end). intros i.
  unfold delta_sample. destruct u as [|a u]; [congruence|]. unfold head_opt, last_opt. cbn [nth_error].
  destruct (nth_error (a :: u) (length (a :: u) - 1)) as [b|] eqn:E.
  - destruct (d3_defined simpson g L (a :: u) (uniform a b (draws i)) Hu Hg) as (d & ->). reflexivity.
  - apply nth_error_None in E. cbn [length] in E. lia.
Qed.

(** ** Stores *)
Section Stores.
Context {F : Type} {N : Num F}.
Definition loc (s : store (F := F)) : nat * nat := match s with StoreV i _ => (0, i) | StoreB i _ => (1, i) | StoreK i _ => (2, i) end%nat.
Lemma set_nth_comm {A} (l : list A) i j x y : i <> j -> set_nth (set_nth l i x) j y = set_nth (set_nth l j y) i x.
Proof. revert i j. induction l as [|a l IH]; intros [|i] [|j] H; cbn; try reflexivity; try congruence. f_equal. apply IH. congruence. Qed.
Lemma do_store_comm a s t : loc s <> loc t -> do_store (do_store a s) t = do_store (do_store a t) s.
Proof.
  destruct a as [[v b] k]. destruct s as [i x|i x|i x], t as [j y|j y|j y]; cbn; intros H; try reflexivity;
    (rewrite set_nth_comm; [reflexivity|congruence]).
Qed.
Lemma stores_perm l l' : Permutation l l' -> NoDup (map loc l) -> forall a : arrays (F := F), fold_left do_store l a = fold_left do_store l' a.
Proof.
  induction 1 as [|x l l' HP IH|x y l|l1 l2 l3 H1 IH1 H2 IH2]; intros HN a.
  - reflexivity.
  - cbn. apply IH. now inversion HN.
  - cbn. rewrite do_store_comm; [reflexivity|]. cbn in HN. inversion HN as [|? ? H]. intros E. apply H. left. now symmetry.
  - rewrite IH1 by exact HN. apply IH2. eapply Permutation_NoDup; [apply Permutation_map, H1|exact HN].
Qed.
Lemma all_stores_locs n (f : nat -> F * bool * Z) : map loc (all_stores n f) = flat_map (fun i => [(0, i); (1, i); (2, i)]%nat) (seq 0 n).
Proof.
  unfold all_stores. generalize (seq 0 n). induction l as [|i l IH]; [reflexivity|]. cbn [flat_map]. rewrite map_app, IH. f_equal.
  unfold stores_of. now destruct (f i) as [[? ?] ?].
Qed.
Lemma all_stores_NoDup n (f : nat -> F * bool * Z) : NoDup (map loc (all_stores n f)).
Proof.
  rewrite all_stores_locs. assert (G : forall l : list nat, NoDup l -> NoDup (flat_map (fun i : nat => [(0, i); (1, i); (2, i)]%nat) l)).
  { induction 1 as [|i l Hi Hl IH]; [constructor|]. cbn [flat_map app].
    assert (K : forall a, ~ In (a, i) (flat_map (fun i : nat => [(0, i); (1, i); (2, i)]%nat) l)).
    { intros a Ha. apply in_flat_map in Ha as (j & Hj & Ha). cbn in Ha. assert (j = i) by (destruct Ha as [E|[E|[E|[]]]]; congruence). congruence. }
    apply NoDup_cons; [intros [E|[E|E]]; [discriminate|discriminate|exact (K _ E)]|].
    apply NoDup_cons; [intros [E|E]; [discriminate|exact (K _ E)]|]. apply NoDup_cons; [apply K|]. exact IH. }
  apply G, seq_NoDup.
Qed.
Definition vals (f : nat -> F * bool * Z) (l : list nat) : arrays := (map (fun i => fst (fst (f i))) l, map (fun i => snd (fst (f i))) l, map (fun i => snd (f i)) l).
Lemma set_nth_app {A} (p s : list A) x y : set_nth (p ++ x :: s) (length p) y = p ++ y :: s.
Proof. induction p as [|a p IH]; [reflexivity|]. cbn. now rewrite IH. Qed.
Lemma run_in_order n (f : nat -> F * bool * Z) junk : length junk = n -> run_stores n junk (all_stores n f) = vals f (seq 0 n).
Proof.
  intros Hj. unfold run_stores, all_stores. assert (G : forall m a (v : list F) (b : list bool) (k : list Z) rv rb rk,
    length v = a -> length b = a -> length k = a -> length rv = m -> length rb = m -> length rk = m ->
    fold_left do_store (flat_map (fun i => stores_of i (f i)) (seq a m)) (v ++ rv, b ++ rb, k ++ rk)
      = (v ++ map (fun i => fst (fst (f i))) (seq a m), b ++ map (fun i => snd (fst (f i))) (seq a m), k ++ map (fun i => snd (f i)) (seq a m))).
  { induction m as [|m IH]; intros a v b k rv rb rk Hv Hb Hk H1 H2 H3.
    - destruct rv, rb, rk; try discriminate. reflexivity.
    - destruct rv as [|x rv], rb as [|y rb], rk as [|z rk]; try discriminate. cbn [seq flat_map]. rewrite fold_left_app.
      unfold stores_of at 2. destruct (f a) as [[fv fb] fk] eqn:E. cbn [fold_left do_store].
      pose proof (set_nth_app v rv x fv) as E1. rewrite Hv in E1. pose proof (set_nth_app b rb y fb) as E2. rewrite Hb in E2.
      pose proof (set_nth_app k rk z fk) as E3. rewrite Hk in E3. rewrite E1, E2, E3.
      specialize (IH (S a) (v ++ [fv]) (b ++ [fb]) (k ++ [fk]) rv rb rk). rewrite <- !app_assoc in IH. cbn [app] in IH.
      rewrite IH by (rewrite ?app_length; cbn in *; lia). cbn [map]. rewrite E. reflexivity. }
  apply (G n 0%nat [] [] []); cbn; rewrite ?repeat_length; auto.
Qed.
Lemma run_any_order n (f : nat -> F * bool * Z) junk schedule : length junk = n -> Permutation schedule (all_stores n f) ->
  run_stores n junk schedule = vals f (seq 0 n).
Proof.
  intros Hj HP. rewrite <- (run_in_order n f junk Hj). unfold run_stores. apply stores_perm; [exact HP|].
  eapply Permutation_NoDup; [apply Permutation_map, Permutation_sym, HP|apply all_stores_NoDup].
Qed.
Lemma each_spec (f : nat -> F -> result (F * bool * Z)) : forall L i rs, each i L f = Ok rs ->
  length rs = length L /\ forall j x, nth_error L j = Some x -> exists r, nth_error rs j = Some r /\ f (i + j)%nat x = Ok r.
Proof.
  induction L as [|x L IH]; intros i rs H; cbn in H.
  - injection H as <-. split; [reflexivity|]. intros [|j] x H; discriminate.
  - destruct (f i x) as [r|] eqn:E; [|discriminate]. cbn in H. destruct (each (S i) L f) as [rs'|] eqn:E2; [|discriminate]. injection H as <-.
    destruct (IH _ _ E2) as (H1 & H2). split; [cbn; lia|]. intros [|j] y Hy; cbn in Hy.
    + injection Hy as <-. exists r. rewrite Nat.add_0_r. auto.
    + destruct (H2 j y Hy) as (r' & H3 & H4). exists r'. replace (i + S j)%nat with (S i + j)%nat by lia. auto.
Qed.
End Stores.
