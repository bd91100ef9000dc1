(** Property C122: what the sampled rigidity estimates. *)
From Coq Require Import List ZArith Bool Arith Lia Reals Lra Sorting.Permutation.
From Coquelicot Require Import Coquelicot.
From Verif Require Import Base S_Order S_EigVals S_Trim M_Step M_Quad M_Loops M_DeltaGrid S_Quad S_Loops S_Average P_Order P_Step P_EigVals P_TrimStat P_TrimFull P_Quad P_Ols P_Loops P_Delta T_Loops T_WindowMean T_NumberVariance.
Import ListNotations.
Local Open Scope R_scope.
Local Notation length := List.length.

(** ** Averages are linear *)
Lemma RInt_const01 (c : R) : is_RInt (fun _ : R => c) 0 1 c.
Proof.
  pose proof (is_RInt_const (V := R_NormedModule) 0 1 c) as I. change (is_RInt (fun _ : R => c) 0 1 (scal (1 - 0) c)) in I.
  assert (scal (1 - 0) c = c) as E0 by (unfold scal; cbn; unfold mult; cbn; ring). rewrite E0 in I. exact I.
Qed.
Lemma average_const k : forall c, IsAverage k (fun _ => c) c.
Proof. induction k as [|k IH]; intro c; cbn [IsAverage]; [reflexivity|]. exists (fun _ => c). split; [intro; apply IH|apply RInt_const01]. Qed.
Lemma average_plus k : forall f g a b, IsAverage k f a -> IsAverage k g b -> IsAverage k (fun l => f l + g l) (a + b).
Proof.
  induction k as [|k IH]; intros f g a b; cbn [IsAverage]; [intros <- <-; reflexivity|]. intros (f' & F & If) (g' & G & Ig).
  exists (fun t => f' t + g' t). split; [intro t; exact (IH (fun l => f (t :: l)) (fun l => g (t :: l)) _ _ (F t) (G t))|]. exact (is_RInt_plus (V := R_NormedModule) _ _ _ _ _ _ If Ig).
Qed.
Lemma average_scal k : forall f a c, IsAverage k f a -> IsAverage k (fun l => c * f l) (c * a).
Proof.
  induction k as [|k IH]; intros f a c; cbn [IsAverage]; [intros <-; reflexivity|]. intros (f' & F & If). exists (fun t => c * f' t).
  split; [intro t; exact (IH (fun l => f (t :: l)) _ c (F t))|]. exact (is_RInt_scal (V := R_NormedModule) _ _ _ c _ If).
Qed.
Lemma average_sum {A} k (f : A -> list R -> R) (m : A -> R) s : (forall x, In x s -> IsAverage k (f x) (m x)) ->
  IsAverage k (fun l => Rsum (map (fun x => f x l) s)) (Rsum (map m s)).
Proof.
  induction s as [|x s IH]; intro H; [apply (average_const k 0)|]. cbn [map]. rewrite Rsum_cons.
  apply (average_ext k (fun l => f x l + Rsum (map (fun x => f x l) s))); [intros l _; now rewrite Rsum_cons|].
  apply average_plus; [apply H; now left|apply IH; intros; apply H; now right].
Qed.
Lemma average_coord (g : R -> R) (m : R) : is_RInt g 0 1 m -> forall k i, (i < k)%nat -> IsAverage k (fun l => g (nth i l 0)) m.
Proof.
  intro I. induction k as [|k IH]; intros i Hi; [lia|]. destruct i as [|i]; cbn [IsAverage nth].
  - exists g. split; [intro t; apply average_const|exact I].
  - exists (fun _ => m). split; [intros _; apply IH; lia|apply RInt_const01].
Qed.
Lemma Rsum_same {A} (s : list A) c : Rsum (map (fun _ => c) s) = INR (length s) * c.
Proof. induction s as [|x s IH]; [cbn; ring|]. cbn [map length]. rewrite Rsum_cons, IH, S_INR. ring. Qed.
Lemma average_runmean (g : R -> R) (m : R) k j : is_RInt g 0 1 m -> (1 <= j <= k)%nat -> IsAverage k (fun l => runmean (fun i => g (nth i l 0)) j) m.
Proof.
  intros I Hj. assert (INR j <> 0) by (apply not_0_INR; lia).
  apply (average_ext k (fun l => / INR j * Rsum (map (fun i => g (nth i l 0)) (seq 0 j)))).
  - intros l _. unfold runmean. rewrite Rmean_INR, map_length, seq_length. unfold Rdiv. ring.
  - replace m with (/ INR j * Rsum (map (fun _ : nat => m) (seq 0 j))) by (rewrite Rsum_same, seq_length; field; assumption).
    apply average_scal. apply (average_sum k (fun i l => g (nth i l 0))). intros i Hi. apply in_seq in Hi. apply average_coord; [exact I|lia].
Qed.
(** The average of what the buffer holds after m + 1 passes: as if every sample had been the mean value. *)
Lemma average_buffer (g : R -> R) (d : R) m : is_RInt g 0 1 d -> (1 <= m)%nat ->
  IsAverage (S m) (fun l => nmean (d_buf (d_after BUFFER (fun i => g (nth i l 0)) m))) (nmean (d_buf (d_after BUFFER (fun _ => d) m))).
Proof.
  intros I Hm. assert (BUFFER = 1000%Z) as EB by reflexivity. assert (2 <= BUFFER)%Z as HB by (rewrite EB; lia).
  assert (forall j, (1 <= j)%nat -> runmean (fun _ => d) j = d) as C by (intros j Hj; now apply runmean_const).
  assert (forall n0, (n0 <= m + 1)%nat -> IsAverage (S m) (fun l => Rsum (map (fun t => runmean (fun i => g (nth i l 0)) (m + 1 - t)) (seq 0 n0)))
     (Rsum (map (fun t => runmean (fun _ => d) (m + 1 - t)) (seq 0 n0)))) as A.
  { intros n0 Hn. apply (average_sum (S m) (fun t l => runmean (fun i => g (nth i l 0)) (m + 1 - t))). intros t Ht. apply in_seq in Ht. rewrite C by lia.
    apply average_runmean; [exact I|lia]. }
  rewrite nmean_R, Rmean_INR, d_buf_length, window_sum by assumption. set (N := INR (Z.to_nat BUFFER)).
  set (b1 := (Z.of_nat m + 1 <=? BUFFER)%Z). set (b2 := (Z.of_nat m + 1 <? BUFFER)%Z). unfold Rdiv. rewrite (Rmult_comm _ (/ N)).
  apply (average_ext (S m) (fun l => / N * (if b1 then Rsum (map (fun t => runmean (fun i => g (nth i l 0)) (m + 1 - t)) (seq 0 m)) + (if b2 then runmean (fun i => g (nth i l 0)) 1 else 0)
    else Rsum (map (fun t => runmean (fun i => g (nth i l 0)) (m + 1 - t)) (seq 0 (Z.to_nat BUFFER)))))).
  { intros l _. rewrite nmean_R, Rmean_INR, d_buf_length, window_sum by (exact HB || exact Hm). fold N b1 b2. unfold Rdiv. ring. }
  apply average_scal. unfold b1. destruct (Z.leb_spec (Z.of_nat m + 1) BUFFER) as [H|H].
  - apply (average_plus (S m) (fun l => Rsum (map (fun t => runmean (fun i => g (nth i l 0)) (m + 1 - t)) (seq 0 m))) (fun l => if b2 then runmean (fun i => g (nth i l 0)) 1 else 0)).
    + apply A. lia.
    + destruct b2; [|apply average_const]. rewrite C by lia. apply average_runmean; [exact I|lia].
  - apply A. rewrite EB in *. lia.
Qed.

(** ** Functions that only depend on which thresholds have been passed are integrable *)
Lemma ex_RInt_thresholds (T : list R) : forall (f : R -> R) a b, a <= b ->
  (forall c c', a < c < b -> a < c' < b -> (forall x, In x T -> (x <= c <-> x <= c') /\ (x = c <-> x = c')) -> f c = f c') -> ex_RInt f a b.
Proof.
  induction T as [|x T IH]; intros f a b Hab H.
  - apply (ex_RInt_ext (fun _ => f ((a + b) / 2))).
    + rewrite Rmin_left, Rmax_right by exact Hab. intros c Hc. apply H; [lra|exact Hc|intros y []].
    + apply ex_RInt_const.
  - destruct (Rle_dec x a) as [Ha|Ha]; [|destruct (Rle_dec b x) as [Hb|Hb]].
    + apply IH; [exact Hab|]. intros c c' Hc Hc' E. apply H; auto. intros y [<-|Hy]; [|now apply E]. split; split; lra.
    + apply IH; [exact Hab|]. intros c c' Hc Hc' E. apply H; auto. intros y [<-|Hy]; [|now apply E]. split; split; lra.
    + apply (ex_RInt_Chasles f a x b); (apply IH; [lra|]); intros c c' Hc Hc' E; apply H; try lra; intros y [<-|Hy]; try (now apply E); split; split; lra.
Qed.

(** ** One sampled value as a function of the centre *)
(** The value computed from the counts [counts] at the points of a window of length L centred at 0. *)
Definition FromCounts (simpson : bool) (n : nat) (L : R) (counts : list Z) : R :=
  let g := EvenGrid (0 - L / 2) (0 + L / 2) n in let st := map IZR counts in
  (if simpson then int_simps_nonunif g (sq_lin_deviation st (slope g st) (intercept g st (slope g st)) g)
   else integrate_fast g (sq_lin_deviation st (slope g st) (intercept g st (slope g st)) g)) / L.
Lemma even_shift lo hi c n : EvenGrid (c + lo) (c + hi) n = map (fun x => x + c) (EvenGrid lo hi n).
Proof. unfold EvenGrid. rewrite map_map. apply map_ext. intro i. replace (c + hi - (c + lo)) with (hi - lo) by ring. ring. Qed.
Lemma d3_counts simpson n L (u : list R) c : (2 <= n)%nat ->
  d3_sample simpson n L u c = match step_function_fast u (EvenGrid (c - L / 2) (c + L / 2) n) with
    | Done counts => Done (FromCounts simpson n L counts) | OutOfBounds => OutOfBounds | Running => Running end.
Proof.
  intros Hn. unfold d3_sample. cbn [nsub nadd ndiv nofZ Num_R]. rewrite linspace_even by exact Hn.
  destruct (step_function_fast u _) as [counts| |]; try reflexivity. f_equal. unfold FromCounts. cbv zeta. set (g := EvenGrid (0 - L / 2) (0 + L / 2) n).
  replace (EvenGrid (c - L / 2) (c + L / 2) n) with (map (fun x => x + c) g) by (symmetry; unfold g; rewrite <- even_shift; f_equal; ring).
  change (map nofZ counts) with (map IZR counts). assert (g <> []) as Hg by (unfold g, EvenGrid; destruct n; [lia|discriminate]).
  rewrite slope_shift, intercept_shift, deviation_shift, simps_shift, trap_shift by exact Hg. reflexivity.
Qed.
Lemma even_ascending lo hi n : lo < hi -> (2 <= n)%nat -> Ascending (EvenGrid lo hi n).
Proof.
  intros Hl Hn. apply StronglySorted_R. unfold EvenGrid. apply le_INR in Hn. cbn in Hn. assert (P : 0 < (hi - lo) / (INR n - 1)) by (apply Rdiv_lt_0_compat; lra).
  set (s := (hi - lo) / (INR n - 1)) in *. generalize 0%nat. generalize n at 1. clear Hn. induction n0 as [|m IH]; intros k; cbn [seq map]; constructor; [apply IH|].
  apply List.Forall_forall. intros x Hx. apply in_map_iff in Hx as (i & <- & Hi). apply in_seq in Hi. assert (INR k <= INR i) by (apply le_INR; lia). nra.
Qed.
Lemma even_last lo hi n : (2 <= n)%nat -> last_opt (EvenGrid lo hi n) = Some hi.
Proof.
  intro Hn. unfold last_opt. rewrite even_length. unfold EvenGrid. rewrite nth_error_map.
  assert (nth_error (seq 0 n) (n - 1) = Some (n - 1)%nat) as ->.
  { rewrite (nth_error_nth' _ 0%nat) by (rewrite seq_length; lia). now rewrite seq_nth by lia. }
  cbn [option_map]. f_equal. rewrite minus_INR by lia. apply le_INR in Hn. cbn in Hn |- *. field. lra.
Qed.
(** Away from the one centre whose window ends at the lowest level, the counts are those of the spectrum. *)
Lemma d3_by_counts simpson n L (u : list R) e0 c : (2 <= n)%nat -> 0 < L -> Ascending u -> head_opt u = Some e0 -> c + L / 2 <> e0 ->
  d3_sample simpson n L u c = Done (FromCounts simpson n L (map (CountLe u) (EvenGrid (c - L / 2) (c + L / 2) n))).
Proof.
  intros Hn HL Hu He Hne. rewrite d3_counts by exact Hn.
  rewrite (step_fast_sorted u _ e0 (c + L / 2) (notnan_R _) (notnan_R _) Hu); [|apply even_ascending; [lra|exact Hn]|exact He|apply even_last; exact Hn].
  replace (neq (c + L / 2) e0) with false; [reflexivity|]. symmetry. cbn. destruct Req_EM_T; [contradiction|reflexivity].
Qed.
Lemma countle_agree (u : list R) x y : (forall e, In e u -> (e <= x <-> e <= y)) -> CountLe u x = CountLe u y.
Proof.
  induction u as [|e u IH]; intro H; [reflexivity|]. cbn [CountLe]. rewrite IH by (intros; apply H; now right). f_equal.
  specialize (H e (or_introl eq_refl)). cbn. destruct (Rle_dec e x), (Rle_dec e y); tauto || reflexivity.
Qed.

(** C122. The value sampled at a window centre is an integrable function of the centre. *)
Theorem C122_integrable : forall simpson n L (u : list R), u <> [] -> Ascending u -> (2 <= n)%nat -> 0 < L ->
  exists D, (forall c, d3_sample simpson n L u c = Done (D c)) /\ forall a b, ex_RInt D a b.
Proof.
  intros simpson n L u Hne Hu Hn HL. set (D := fun c => match d3_sample simpson n L u c with Done d => d | _ => 0 end).
  assert (forall c, d3_sample simpson n L u c = Done (D c)) as HD.
  { intro c. unfold D. destruct (d3_defined simpson n L u c Hne ltac:(lia)) as (d & ->). reflexivity. }
  exists D. split; [exact HD|]. destruct u as [|e0 u']; [congruence|]. set (u := e0 :: u') in *.
  set (T := (e0 - L / 2) :: flat_map (fun e => map (fun x => e - x) (EvenGrid (0 - L / 2) (0 + L / 2) n)) u).
  assert (forall c c', (forall x, In x T -> (x <= c <-> x <= c') /\ (x = c <-> x = c')) -> D c = D c') as K.
  { intros c c' HT. destruct (Req_EM_T (c + L / 2) e0) as [E|E].
    - assert (c = c') as ->; [|reflexivity]. destruct (HT (e0 - L / 2) ltac:(now left)) as [_ [H _]]. assert (e0 - L / 2 = c) as Q by lra. specialize (H Q). lra.
    - assert (c' + L / 2 <> e0) as E'. { intro Q. destruct (HT (e0 - L / 2) ltac:(now left)) as [_ [_ H]]. apply E. assert (e0 - L / 2 = c') as Q' by lra. specialize (H Q'). lra. }
      assert (forall y, y + L / 2 <> e0 -> D y = FromCounts simpson n L (map (CountLe u) (EvenGrid (y - L / 2) (y + L / 2) n))) as Q.
      { intros y Hy. pose proof (HD y) as H1. rewrite (d3_by_counts _ _ _ u e0) in H1 by (auto || exact eq_refl). congruence. }
      rewrite !Q by assumption. f_equal.
      replace (EvenGrid (c - L / 2) (c + L / 2) n) with (map (fun x => x + c) (EvenGrid (0 - L / 2) (0 + L / 2) n)) by (rewrite <- even_shift; f_equal; ring).
      replace (EvenGrid (c' - L / 2) (c' + L / 2) n) with (map (fun x => x + c') (EvenGrid (0 - L / 2) (0 + L / 2) n)) by (rewrite <- even_shift; f_equal; ring).
      rewrite !map_map. apply map_ext_in. intros x Hx. apply countle_agree. intros e He. destruct (HT (e - x)) as [H _]; [|split; intro; apply Rplus_le_reg_l with (- x); ring_simplify; [assert (e - x <= c') by (apply H; lra)|assert (e - x <= c) by (apply H; lra)]; lra].
      right. apply in_flat_map. exists e. split; [exact He|]. apply in_map_iff. exists x. auto. }
  assert (forall a b, a <= b -> ex_RInt D a b) as G. { intros a b Hab. apply (ex_RInt_thresholds T); [exact Hab|]. intros. now apply K. }
  intros a b. destruct (Rle_dec a b) as [H|H]; [now apply G|]. apply ex_RInt_swap. apply G. lra.
Qed.
Print Assumptions C122_integrable.

Lemma spread_nonpos (b : list R) tol : b <> [] -> tol <= 0 -> spread_below b tol = false.
Proof.
  intros Hb Ht. unfold spread_below. destruct b as [|h t]; [congruence|]. cbn [nlt nabs nsub Num_R]. destruct Rlt_dec as [H|H]; [|reflexivity].
  match type of H with Rabs ?x < _ => pose proof (Rabs_pos x) end. lra.
Qed.
Lemma after_ext {F : Type} {N : Num F} size (v w : nat -> F) m : (forall i, (i <= m)%nat -> v i = w i) -> d_after size v m = d_after size w m.
Proof. induction m as [|m IH]; intro H; cbn [d_after]; [now rewrite H by lia|]. rewrite IH by (intros; apply H; lia). now rewrite H by lia. Qed.

Lemma rescaled simpson n L (u : list R) lo hi D : Ascending u -> u <> [] -> lo < hi -> (2 <= n)%nat -> 0 < L -> (forall c, d3_sample simpson n L u c = Done (D c)) ->
  is_RInt (fun t => D (uniform lo hi t)) 0 1 (RInt D lo hi / (hi - lo)).
Proof.
  intros Hu Hne Hlh Hn HL HD.
  destruct (C122_integrable simpson n L u Hne Hu Hn HL) as (D' & HD' & Hex).
    assert (forall a b, ex_RInt D a b) as Hex2. { intros a b. apply (ex_RInt_ext D'); [|apply Hex]. intros x _. specialize (HD x). specialize (HD' x). congruence. }
    pose proof (RInt_correct D lo hi (Hex2 lo hi)) as I0.
    replace lo with ((hi - lo) * 0 + lo) in I0 at 1 by ring. replace hi with ((hi - lo) * 1 + lo) in I0 at 2 by ring.
    apply (is_RInt_comp_lin (V := R_NormedModule)) in I0. apply (is_RInt_scal (V := R_NormedModule) _ _ _ (/ (hi - lo))) in I0.
    replace (RInt D lo hi / (hi - lo)) with (scal (/ (hi - lo)) (RInt D lo hi)) by (unfold scal; cbn; unfold mult; cbn; unfold Rdiv; ring).
    eapply is_RInt_ext; [|exact I0]. intros t _. cbv beta. unfold uniform. cbn [nadd nmul nsub Num_R].
    replace ((hi - lo) * t + lo) with (lo + (hi - lo) * t) by ring. unfold scal; cbn; unfold mult; cbn. field. lra.
Qed.

(** C122. With exactly k windows at independent uniform centres, the rigidity returned is on average the rigidity averaged over all
    centres if k > 1000; k/1000 times that below 1000 windows, 0.999 times at 1000 (the average is then over unwritten zeros as well). *)
Theorem C122_expected_refuted : forall simpson n L (u : list R) lo hi k tol mn D, Ascending u -> head_opt u = Some lo -> last_opt u = Some hi -> lo < hi ->
  (2 <= n)%nat -> 0 < L -> (2 <= k)%nat -> tol <= 0 -> (forall c, d3_sample simpson n L u c = Done (D c)) ->
  exists s, (forall l, length l = k -> delta_L u L n (Z.of_nat k) mn tol simpson (fun j => nth j l 0) = Done (s l, false, Z.of_nat k)) /\
    let mean := RInt D lo hi / (hi - lo) in
    ((1000 < k)%nat -> IsAverage k s mean) /\ ((k = 1000)%nat -> IsAverage k s (0.999 * mean)) /\
    ((k < 1000)%nat -> IsAverage k s (INR k / 1000 * mean)).
Proof.
  intros simpson n L u lo hi k tol mn D Hu Hlo Hhi Hlh Hn HL Hk Ht HD. set (g := fun t => D (uniform lo hi t)).
  assert (u <> []) as Hne by (intros ->; discriminate).
  assert (is_RInt g 0 1 (RInt D lo hi / (hi - lo))) as I by (apply (rescaled simpson n L u); assumption).
  set (m := (k - 1)%nat). assert (k = S m) as Ek by lia. assert (1 <= m)%nat as Hm by lia.
  exists (fun l => nmean (d_buf (d_after BUFFER (fun i => g (nth i l 0)) m))). split.
  - intros l Hl. assert (forall i, delta_sample simpson n L u (fun j => nth j l 0) i = Done (g (nth i l 0))) as HS.
    { intro i. unfold delta_sample. rewrite Hlo, Hhi. apply HD. }
    unfold delta_L. destruct (delta_run_done BUFFER (fun i => g (nth i l 0)) _ (Z.of_nat k) mn tol HS) as (m' & -> & M1 & M2 & M3 & _).
    assert (forall m, d_buf (d_after BUFFER (fun i => g (nth i l 0)) m) <> []) as Hb.
    { intros j E. apply (f_equal (@length R)) in E. rewrite d_buf_length in E. discriminate E. }
    assert (m' = m) as ->. { destruct (Z.lt_ge_cases (Z.of_nat m' + 1) (Z.of_nat k)) as [H|H]; [|lia]. destruct (M3 H) as (_ & _ & X). rewrite spread_nonpos in X by auto. discriminate. }
    rewrite spread_nonpos by auto. rewrite d_after_k. do 2 f_equal. lia.
  - cbv zeta. pose proof (average_buffer g _ m I Hm) as A. rewrite Ek. set (mean := RInt D lo hi / (hi - lo)) in *.
    rewrite (mean_const BUFFER (fun _ => mean) ltac:(unfold BUFFER; lia) mean m Hm) in A by auto. change BUFFER with 1000%Z in A at 2 3 4 5 6.
    destruct (Z.ltb_spec 1000 (Z.of_nat m + 1)), (Z.eqb_spec (Z.of_nat m + 1) 1000); splits; intro; try lia.
    + exact A.
    + replace (0.999 * mean) with (mean * (1000 - 1) / 1000) by lra. exact A.
    + replace (INR (S m) / 1000 * mean) with (mean * INR (m + 1) / 1000) by (rewrite Nat.add_1_r; field). exact A.
Qed.
Print Assumptions C122_expected_refuted.

(** C122. The unused [_delta_grid] has no such bias: with any number k >= 1 of independent uniform centres it returns on average the
    rigidity averaged over all centres, and it does not depend on the order of the centres. *)
Theorem C122_delta_grid : forall simpson n L (u : list R) lo hi k D, Ascending u -> u <> [] -> lo < hi -> (2 <= n)%nat -> 0 < L -> (1 <= k)%nat ->
  (forall c, d3_sample simpson n L u c = Done (D c)) ->
  (exists s, (forall l, length l = k -> delta_grid u (map (fun t => lo + (hi - lo) * t) l) L n simpson = Done (s l)) /\ IsAverage k s (RInt D lo hi / (hi - lo))) /\
  (forall starts starts', Permutation starts starts' -> delta_grid u starts L n simpson = delta_grid u starts' L n simpson).
Proof.
  intros simpson n L u lo hi k D Hu Hne Hlh Hn HL Hk HD.
  assert (forall starts, delta_grid u starts L n simpson = Done (Rmean (map D starts))) as E.
  { intro starts. unfold delta_grid. assert (delta3s simpson n L u starts = Done (map D starts)) as ->.
    { induction starts as [|c t IH]; [reflexivity|]. cbn [delta3s map]. now rewrite HD, IH. }
    now rewrite nmean_R. }
  split.
  - set (g := fun t => D (uniform lo hi t)). pose proof (rescaled simpson n L u lo hi D Hu Hne Hlh Hn HL HD) as I.
    exists (fun l => / INR k * Rsum (map g l)). split.
    + intros l Hl. rewrite E, map_map. f_equal. rewrite Rmean_INR, map_length, Hl. unfold Rdiv. rewrite Rmult_comm. reflexivity.
    + set (m := RInt D lo hi / (hi - lo)) in *. assert (INR k <> 0) by (apply not_0_INR; lia).
      replace m with (/ INR k * Rsum (map (fun _ : nat => m) (seq 0 k))) by (rewrite Rsum_same, seq_length; field; assumption).
      apply average_scal. apply (average_ext k (fun l => Rsum (map (fun i => g (nth i l 0)) (seq 0 k)))).
      * intros l Hl. f_equal. rewrite <- Hl. clear. induction l as [|x l IH]; [reflexivity|]. cbn [length seq map nth]. f_equal. rewrite <- seq_shift, map_map. exact IH.
      * apply (average_sum k (fun i l => g (nth i l 0))). intros i Hi. apply in_seq in Hi. apply average_coord; [exact I|lia].
  - intros starts starts' P. rewrite !E. f_equal. apply Rmean_perm. now apply Permutation_map.
Qed.
Print Assumptions C122_delta_grid.

(** Three levels, windows of length 2 with three points: the sample is 0 left of the second level and 5/72 right of it, 5/108 on average;
    two windows report 1/500 of that. *)
Lemma grid3 c : EvenGrid (c - 2 / 2) (c + 2 / 2) 3 = [c - 1; c; c + 1].
Proof. unfold EvenGrid. cbn [seq map INR]. repeat (apply f_equal2; [field|]). reflexivity. Qed.
Lemma from_three a b c : FromCounts false 3 2 [a; b; c] = 5 / 72 * ((IZR a - 2 * IZR b + IZR c) * (IZR a - 2 * IZR b + IZR c)).
Proof.
  unfold FromCounts. rewrite grid3. cbv zeta. cbn [map]. set (x := IZR a). set (y := IZR b). set (z := IZR c).
  assert (slope [0 - 1; 0; 0 + 1] [x; y; z] = (z - x) / 2) as ->.
  { rewrite slope_R. assert (Sxy [0 - 1; 0; 0 + 1] [0 - 1; 0; 0 + 1] (Rmean [0 - 1; 0; 0 + 1]) (Rmean [0 - 1; 0; 0 + 1]) = 2) as ->.
    { unfold Sxy, Rmean. cbn. field. }
    destruct Req_EM_T; [lra|]. unfold Sxy, Rmean. cbn. field. }
  rewrite intercept_R, trap_TrapSum by reflexivity. unfold sq_lin_deviation, Rmean. cbn. field.
Qed.
Lemma countle3 c : CountLe [0; 1; 3] c = ((if Rle_dec 0 c then 1 else 0) + ((if Rle_dec 1 c then 1 else 0) + ((if Rle_dec 3 c then 1 else 0) + 0)))%Z.
Proof. cbn. destruct (Rle_dec 0 c), (Rle_dec 1 c), (Rle_dec 3 c); reflexivity. Qed.
Lemma RInt_piece (f : R -> R) a b v : a < b -> (forall x, a < x < b -> f x = v) -> is_RInt f a b ((b - a) * v).
Proof.
  intros Hab H. apply (is_RInt_ext (fun _ => v)).
  - rewrite Rmin_left, Rmax_right by lra. intros x Hx. symmetry. now apply H.
  - exact (is_RInt_const (V := R_NormedModule) a b v).
Qed.
Example C122_case : exists D s, (forall c, d3_sample false 3 2 [0; 1; 3] c = Done (D c)) /\ RInt D 0 3 / (3 - 0) = 5 / 108 /\
  (forall l, length l = 2%nat -> delta_L [0; 1; 3] 2 3 2 100 0 false (fun j => nth j l 0) = Done (s l, false, 2%Z)) /\ IsAverage 2 s (1 / 10800).
Proof.
  assert (Ascending [0; 1; 3]) as Hu by (apply StronglySorted_R; repeat constructor; lra).
  destruct (C122_integrable false 3 2 [0; 1; 3] ltac:(discriminate) Hu ltac:(lia) ltac:(lra)) as (D & HD & _). exists D.
  assert (forall c, 0 <= c -> D c = FromCounts false 3 2 [CountLe [0; 1; 3] (c - 1); CountLe [0; 1; 3] c; CountLe [0; 1; 3] (c + 1)]) as Q.
  { intros c Hc. pose proof (HD c) as H. rewrite (d3_by_counts _ _ _ _ 0), grid3 in H; [|lia|lra|exact Hu|reflexivity|lra]. cbn [map] in H. congruence. }
  assert (RInt D 0 3 / (3 - 0) = 5 / 108) as E.
  { assert (is_RInt D 0 1 ((1 - 0) * 0)) as I1.
    { apply RInt_piece; [lra|]. intros c Hc. rewrite Q by lra. rewrite !countle3, from_three. repeat destruct Rle_dec; try lra; cbn; field. }
    assert (is_RInt D 1 2 ((2 - 1) * (5 / 72))) as I2.
    { apply RInt_piece; [lra|]. intros c Hc. rewrite Q by lra. rewrite !countle3, from_three. repeat destruct Rle_dec; try lra; cbn; field. }
    assert (is_RInt D 2 3 ((3 - 2) * (5 / 72))) as I3.
    { apply RInt_piece; [lra|]. intros c Hc. rewrite Q by lra. rewrite !countle3, from_three. repeat destruct Rle_dec; try lra; cbn; field. }
    pose proof (is_RInt_Chasles (V := R_NormedModule) _ _ _ _ _ _ (is_RInt_Chasles (V := R_NormedModule) _ _ _ _ _ _ I1 I2) I3) as I.
    rewrite (is_RInt_unique D 0 3 _ I). unfold plus; cbn. field. }
  destruct (C122_expected_refuted false 3 2 [0; 1; 3] 0 3 2 0 100 D Hu eq_refl eq_refl ltac:(lra) ltac:(lia) ltac:(lra) ltac:(lia) ltac:(lra) HD) as (s & S1 & _ & _ & S2).
  exists s. splits; [exact HD|exact E|exact S1|]. replace (1 / 10800) with (INR 2 / 1000 * (RInt D 0 3 / (3 - 0))); [apply S2; lia|]. rewrite E. cbn. field.
Qed.
(** A case of C40_last_means (T_Loops.v): 1001 equal samples 5/72, and the rigidity reported is that sample. *)
Example C40_case : (forall i, delta_sample false 3 2 [0; 1; 3] (fun _ => 1 / 2) i = Done (5 / 72)) /\
  exists conv, delta_L [0; 1; 3] 2 3 1001 2000 0 false (fun _ => 1 / 2) = Done (5 / 72, conv, 1001%Z).
Proof.
  assert (Ascending [0; 1; 3]) as Hu by (apply StronglySorted_R; repeat constructor; lra).
  assert (d3_sample false 3 2 [0; 1; 3] (3 / 2) = Done (5 / 72)) as E.
  { rewrite (d3_by_counts _ _ _ _ 0), grid3; [|lia|lra|exact Hu|reflexivity|lra]. cbn [map]. rewrite !countle3, from_three.
    f_equal. repeat destruct Rle_dec; try lra; cbn; field. }
  assert (forall i, delta_sample false 3 2 [0; 1; 3] (fun _ => 1 / 2) i = Done (5 / 72)) as Hv.
  { intro i. rewrite <- E. unfold delta_sample. unfold uniform. cbn. f_equal. lra. }
  split; [exact Hv|].
  destruct (C39_iterations [0; 1; 3] 2 3 1001 2000 0 false (fun _ => 1 / 2) (fun _ => 5 / 72) Hv) as (d & conv & k & H & Hk & G).
  assert (k = 1001%Z) as ->.
  { destruct (Z.lt_ge_cases k 1001) as [C|C]; [|lia]. destruct (G C) as (_ & _ & ?). lia. }
  exists conv. rewrite H. do 3 f_equal.
  refine (proj2 (C40_last_means _ _ _ _ _ _ _ _ (fun _ => 5 / 72) d conv (Z.to_nat 1001) Hv _ _) _); [rewrite Z2Nat.id by lia; exact H|lia|reflexivity].
Qed.
From Coq Require Import QArith.
Example C122_delta_grid_ex : delta_grid [0; 1; 3]%Q [1 # 2; 3 # 2; 5 # 2]%Q 2%Q 3 false = Done (5 # 108)%Q /\
  delta_grid [0; 1; 3]%Q [5 # 2; 1 # 2; 3 # 2]%Q 2%Q 3 false = Done (5 # 108)%Q.
Proof. vm_compute. auto. Qed.
