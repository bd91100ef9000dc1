(** Catalan numbers, the limits of the loop averages, and the traces of powers in terms of eigenvalues. *)
From Coq Require Import List ZArith Bool Arith Lia Reals Lra.
From Coquelicot Require Import Coquelicot.
From Verif Require Import Base M_Generate S_Generate S_Normal S_Rotate S_CCharPoly S_Moments P_Generate P_Surmise P_Rotate T_Rotate P_Moments P_Wishart P_Fourth P_Fourth2 P_CDet P_CCharPoly P_Stein P_Loop.
Import ListNotations.
Local Open Scope R_scope.
Local Notation length := List.length.

(** ** Catalan numbers *)
Lemma catalan_0 : catalan 0 = 1.
Proof. unfold catalan. cbn. field. Qed.
Lemma catalan_S m : (INR m + 2) * catalan (S m) = (4 * INR m + 2) * catalan m.
Proof.
  unfold catalan. replace (2 * S m)%nat with (S (S (2 * m))) by lia. rewrite !fact_simpl, !mult_INR. pose proof (INR_fact_neq_0 m). pose proof (INR_fact_neq_0 (2 * m)).
  rewrite !S_INR, mult_INR. cbn [INR]. replace (1 + 1) with 2 by ring. pose proof (pos_INR m). field. repeat split; lra.
Qed.
Lemma catalan_pos m : 0 < catalan m.
Proof. unfold catalan. apply Rdiv_lt_0_compat; [apply INR_fact_lt_0|]. apply Rmult_lt_0_compat; apply INR_fact_lt_0. Qed.
Lemma SumTo_rev m : forall f, SumTo (S m) (fun i => f (m - i)%nat) = SumTo (S m) f.
Proof.
  induction m as [|m IH]; intro f; [reflexivity|]. rewrite SumTo_shift. replace (S m - 0)%nat with (S m) by lia. rewrite (SumTo_ext (S m) _ (fun i => f (m - i)%nat)) by (intros; f_equal).
  rewrite IH. change (SumTo (S (S m)) f) with (SumTo (S m) f + f (S m)). ring.
Qed.
Lemma catalan_conv m : SumTo (S m) (fun i => catalan i * catalan (m - i)) = catalan (S m).
Proof.
  assert (forall m, 2 * SumTo (S m) (fun i => INR i * (catalan i * catalan (m - i))) = INR m * SumTo (S m) (fun i => catalan i * catalan (m - i))) as T.
  { intro q. set (x := SumTo (S q) (fun i => INR i * (catalan i * catalan (q - i)))).
    assert (x = SumTo (S q) (fun i => (INR q - INR i) * (catalan i * catalan (q - i)))) as E.
    { unfold x. rewrite <- SumTo_rev. apply SumTo_ext. intros i Hi. rewrite minus_INR by lia. replace (q - (q - i))%nat with i by lia. ring. }
    replace (2 * x) with (x + x) by ring. rewrite E at 2. unfold x. rewrite <- SumTo_add, <- SumTo_scale. apply SumTo_ext. intros; ring. }
  induction m as [|m IH].
  - cbn [SumTo Nat.sub]. pose proof (catalan_S 0) as H. rewrite catalan_0 in *. cbn [INR] in H. lra.
  - pose proof (T m) as Tm. pose proof (T (S m)) as TS.
    set (S0 := SumTo (S m) (fun i => catalan i * catalan (m - i))) in *. set (S1 := SumTo (S (S m)) (fun i => catalan i * catalan (S m - i))) in *.
    assert (SumTo (S m) (fun i => (INR i + 2) * (catalan (S i) * catalan (m - i))) = SumTo (S m) (fun i => (4 * INR i + 2) * (catalan i * catalan (m - i)))) as E.
    { apply SumTo_ext. intros i _. rewrite <- !Rmult_assoc, catalan_S. ring. }
    assert (SumTo (S m) (fun i => (4 * INR i + 2) * (catalan i * catalan (m - i))) = 4 * SumTo (S m) (fun i => INR i * (catalan i * catalan (m - i))) + 2 * S0) as E1.
    { unfold S0. rewrite <- !SumTo_scale, <- SumTo_add. apply SumTo_ext. intros; ring. }
    assert (SumTo (S m) (fun i => (INR i + 2) * (catalan (S i) * catalan (m - i))) + catalan (S m) = SumTo (S (S m)) (fun i => INR i * (catalan i * catalan (S m - i))) + S1) as E2.
    { unfold S1. rewrite <- SumTo_add, (SumTo_shift (S m)). cbv beta. rewrite (SumTo_ext (S m) (fun i => INR (S i) * (catalan (S i) * catalan (S m - S i)) + catalan (S i) * catalan (S m - S i)) (fun i => (INR i + 2) * (catalan (S i) * catalan (m - i)))).
      - rewrite catalan_0. replace (S m - 0)%nat with (S m) by lia. cbn [INR]. ring.
      - intros i _. rewrite S_INR. replace (S m - S i)%nat with (m - i)%nat by lia. ring. }
    pose proof (catalan_S (S m)) as CS. rewrite S_INR in *. pose proof (pos_INR m). rewrite IH in *.
    apply (Rmult_eq_reg_l (INR m + 1 + 2)); [|lra]. rewrite CS. lra.
Qed.
Lemma semi_0 : semicircle_moment 0 = 1.
Proof. apply catalan_0. Qed.
Lemma semi_even m : semicircle_moment (2 * m) = catalan m.
Proof. unfold semicircle_moment. rewrite Nat.even_mul. cbn [Nat.even orb]. now rewrite Nat.div2_double. Qed.
Lemma semi_odd m : semicircle_moment (S (2 * m)) = 0.
Proof. unfold semicircle_moment. rewrite Nat.even_succ, <- Nat.negb_even, Nat.even_mul. reflexivity. Qed.
Lemma SumTo_evens m f : (forall i, f (S (2 * i)) = 0) -> SumTo (S (2 * m)) f = SumTo (S m) (fun i => f (2 * i)%nat).
Proof.
  intro H. induction m as [|m IH]; [reflexivity|]. replace (S (2 * S m)) with (S (S (S (2 * m)))) by lia.
  change (SumTo (S (S (S (2 * m)))) f) with (SumTo (S (2 * m)) f + f (S (2 * m)) + f (S (S (2 * m)))). rewrite IH, H.
  change (SumTo (S (S m)) (fun i => f (2 * i)%nat)) with (SumTo (S m) (fun i => f (2 * i)%nat) + f (2 * S m)%nat). replace (2 * S m)%nat with (S (S (2 * m))) by lia. ring.
Qed.
Lemma semi_conv k : SumTo k (fun r => semicircle_moment r * semicircle_moment (k - 1 - r)) = semicircle_moment (S k).
Proof.
  destruct (Nat.Even_or_Odd k) as [(m & ->)|(m & E)].
  - rewrite semi_odd. rewrite (SumTo_ext _ _ (fun _ => 0)); [rewrite SumTo_const; ring|]. intros r Hr.
    destruct (Nat.Even_or_Odd r) as [(q & ->)|(q & E)].
    + replace (2 * m - 1 - 2 * q)%nat with (S (2 * (m - q - 1))) by lia. rewrite semi_odd. ring.
    + replace r with (S (2 * q)) by lia. rewrite semi_odd. ring.
  - replace k with (S (2 * m)) by lia. clear E k. rewrite SumTo_evens by (intro; rewrite semi_odd; ring). replace (S (S (2 * m))) with (2 * S m)%nat by lia. rewrite semi_even, <- catalan_conv.
    apply SumTo_ext. intros i Hi. replace (S (2 * m) - 1 - 2 * i)%nat with (2 * (m - i))%nat by lia. now rewrite !semi_even.
Qed.

(** ** Odd total powers average to zero; the limits *)
Definition degree (ks : list nat) : nat := fold_right Nat.add O ks.
Lemma picks_degree ks : forall p, In p (picks ks) -> (fst p + degree (snd p))%nat = degree ks /\ S (length (snd p)) = length ks.
Proof.
  induction ks as [|k ks IH]; [intros p []|]. intros p [<-|Hp]; [cbn; auto|]. apply in_map_iff in Hp. destruct Hp as (q & <- & Hq). destruct (IH q Hq). cbn in *. unfold degree in *. lia.
Qed.
Lemma total_0 {A} (f : A -> R) l : (forall a, In a l -> f a = 0) -> total (map f l) = 0.
Proof. unfold total. induction l as [|a l IH]; intro H; [reflexivity|]. cbn. rewrite H, IH; [ring| |now left]. intros. apply H. now right. Qed.
Lemma odd_average f b n : forall ks, Nat.odd (degree ks) = true -> loop_average f b n ks = 0.
Proof.
  induction f as [|f IH]; intros ks Ho; [reflexivity|]. cbn [loop_average]. destruct ks as [|[|k] ks]; [discriminate|rewrite IH by exact Ho; ring|].
  assert (forall x y, (x + 2 = y)%nat -> Nat.odd y = true -> Nat.odd x = true) as P by (intros x y <- H; rewrite Nat.odd_add in H; cbn in H; now rewrite xorb_false_r in H).
  rewrite (SumTo_ext k _ (fun _ => 0)). 2:{ intros r Hr. apply IH. refine (P _ _ _ Ho). cbn. unfold degree. lia. }
  rewrite total_0.
  - rewrite SumTo_const. destruct k as [|k]; [cbn [INR]; ring|]. rewrite IH; [ring|]. refine (P _ _ _ Ho). cbn. unfold degree. lia.
  - intros [m r] Hp. cbn [fst snd]. destruct m as [|m]; [cbn [INR]; ring|]. rewrite IH; [ring|]. refine (P _ _ _ Ho). destruct (picks_degree ks _ Hp) as [D _]. cbn in *. unfold degree in *. lia.
Qed.
Definition spread (ks : list nat) : nat := (degree ks + 2 * length ks)%nat.
Definition side (n : nat) : R := sqrt (INR (S n)).
Lemma side_pos n : 0 < side n.
Proof. apply sqrt_lt_R0, lt_0_INR. lia. Qed.
Lemma side_sq n : side n * side n = INR (S n).
Proof. apply sqrt_sqrt, pos_INR. Qed.
Lemma inv_lim : is_lim_seq (fun n => / INR (S n)) 0.
Proof. apply (is_lim_seq_incr_1 (fun n => / INR n)). replace (Finite 0) with (Rbar_inv p_infty) by reflexivity. apply is_lim_seq_inv; [apply is_lim_seq_INR|discriminate]. Qed.
Lemma lim_SumTo N (f : nat -> nat -> R) (v : nat -> R) : (forall i, (i < N)%nat -> is_lim_seq (f i) (v i)) -> is_lim_seq (fun n => SumTo N (fun i => f i n)) (SumTo N v).
Proof. induction N as [|N IH]; intro H; cbn [SumTo]; [apply is_lim_seq_const|]. apply (is_lim_seq_plus' (fun n => SumTo N (fun i => f i n)) (f N)); auto. Qed.
Lemma lim_total {A} (f : A -> nat -> R) (l : list A) : (forall a, In a l -> is_lim_seq (f a) 0) -> is_lim_seq (fun n => total (map (fun a => f a n) l)) 0.
Proof.
  unfold total. induction l as [|a l IH]; intro H; cbn [map fold_right]; [apply is_lim_seq_const|]. replace (Finite 0) with (Finite (0 + 0)) by (f_equal; ring).
  apply (is_lim_seq_plus' (f a)); [apply H; now left|]. apply IH. intros. apply H. now right.
Qed.
Definition semis (ks : list nat) : R := fold_right Rmult 1 (map semicircle_moment ks).
Lemma loop_limit b f : forall ks, (weight ks < f)%nat -> is_lim_seq (fun n => loop_average f b (INR (S n)) ks / side n ^ spread ks) (semis ks).
Proof.
  induction f as [|f IH]; intros ks Hw; [lia|]. cbn [loop_average]. destruct ks as [|[|k] ks].
  - apply (is_lim_seq_ext (fun _ => 1)); [intro n; cbn; field|apply is_lim_seq_const].
  - apply (is_lim_seq_ext (fun n => loop_average f b (INR (S n)) ks / side n ^ spread ks)).
    + intro n. replace (spread (0%nat :: ks)) with (S (S (spread ks))) by (unfold spread, degree; cbn; lia). cbn [pow]. rewrite <- (side_sq n). pose proof (side_pos n). pose proof (pow_lt _ (spread ks) H). field. split; lra.
    + unfold semis. cbn [map fold_right]. rewrite semi_0, Rmult_1_l. apply IH. unfold weight in *. cbn in Hw. lia.
  - pose (T1 := fun n => SumTo k (fun r => loop_average f b (INR (S n)) (r :: (k - 1 - r)%nat :: ks) / side n ^ spread (r :: (k - 1 - r)%nat :: ks))).
    pose (T2 := fun n => b * INR k * (loop_average f b (INR (S n)) ((k - 1)%nat :: ks) / side n ^ spread ((k - 1)%nat :: ks) * / INR (S n))).
    pose (T3 := fun n => (1 + b) * total (map (fun p => INR (fst p) * (loop_average f b (INR (S n)) ((k + fst p - 1)%nat :: snd p) / side n ^ spread ((k + fst p - 1)%nat :: snd p) * (/ INR (S n) * / INR (S n)))) (picks ks))).
    apply (is_lim_seq_ext (fun n => T1 n + T2 n + T3 n)).
    + intro n. pose proof (side_pos n) as Hs. assert (side n <> 0) as Hs0 by lra. assert (forall e, side n ^ e <> 0) as Hp by (intro e; pose proof (pow_lt _ e Hs); lra).
      assert (forall x y z w, (x + y + z) / w = x / w + y / w + z / w) as Q3 by (intros; unfold Rdiv; ring). assert (forall x y w, x * y / w = x * (y / w)) as Q1 by (intros; unfold Rdiv; ring).
      rewrite Q3. f_equal; [f_equal|].
      * unfold T1, Rdiv at 2. rewrite (Rmult_comm (SumTo k _) (/ _)), <- SumTo_scale. apply SumTo_ext. intros r Hr.
        replace (spread (S k :: ks)) with (spread (r :: (k - 1 - r)%nat :: ks)); [unfold Rdiv; ring|]. unfold spread. cbn. unfold degree. lia.
      * unfold T2. destruct k as [|k]; [cbn [INR]; unfold Rdiv; ring|]. replace (spread (S (S k) :: ks)) with (S (S (spread ((S k - 1)%nat :: ks)))) by (unfold spread; cbn; unfold degree; lia).
        cbn [pow]. rewrite <- (side_sq n). field. auto.
      * unfold T3. rewrite (Q1 (1 + b)). f_equal. unfold total. assert (forall p, In p (picks ks) -> (fst p + degree (snd p))%nat = degree ks /\ S (length (snd p)) = length ks) as I by (apply picks_degree). revert I. generalize (picks ks). intro ps. induction ps as [|[m r] ps IHp]; intro I; cbn [map fold_right fst snd]; [unfold Rdiv; ring|].
        assert (forall x y w, (x + y) / w = x / w + y / w) as Q2 by (intros; unfold Rdiv; ring). rewrite Q2, <- IHp by (intros; apply I; now right). f_equal. destruct m as [|m]; [cbn [INR]; unfold Rdiv; ring|].
        destruct (I (S m, r)) as [D L]; [now left|]. cbn [fst snd] in D, L.
        replace (spread (S k :: ks)) with (S (S (S (S (spread ((k + S m - 1)%nat :: r)))))); [cbn [pow]; rewrite <- (side_sq n); field; auto|].
        unfold spread. cbn [length]. rewrite <- L. change (degree (S k :: ks)) with (S k + degree ks)%nat. rewrite <- D. change (degree ((k + S m - 1)%nat :: r)) with (k + S m - 1 + degree r)%nat. lia.
    + replace (semis (S k :: ks)) with (SumTo k (fun r => semis (r :: (k - 1 - r)%nat :: ks)) + b * INR k * (semis ((k - 1)%nat :: ks) * 0) + (1 + b) * 0).
      2:{ unfold semis. cbn [map fold_right]. rewrite <- semi_conv. fold (semis ks). rewrite (Rmult_comm (SumTo k _)), <- SumTo_scale.
          rewrite Rmult_0_r, !Rmult_0_r, !Rplus_0_r. apply SumTo_ext. intros; ring. }
      apply (is_lim_seq_plus' (fun n => T1 n + T2 n)); [apply (is_lim_seq_plus' T1)|].
      * apply lim_SumTo. intros r Hr. apply IH. unfold weight in *. cbn in Hw |- *. lia.
      * apply (is_lim_seq_scal_l _ (b * INR k) (semis ((k - 1)%nat :: ks) * 0)). apply is_lim_seq_mult'; [|exact inv_lim]. apply IH. unfold weight in *. cbn in Hw |- *. lia.
      * apply (is_lim_seq_scal_l _ (1 + b) 0). apply lim_total. intros [m r] Hp. cbn [fst snd]. replace (Finite 0) with (Finite (INR m * (semis ((k + m - 1)%nat :: r) * (0 * 0)))) by (f_equal; ring).
        apply (is_lim_seq_scal_l _ (INR m) (semis ((k + m - 1)%nat :: r) * (0 * 0))). apply is_lim_seq_mult'; [|apply is_lim_seq_mult'; exact inv_lim]. apply IH.
        pose proof (picks_weight ks _ Hp) as W. unfold weight in *. cbn in Hw, W |- *. lia.
Qed.

(** ** Traces of powers and eigenvalues *)
Lemma cspectrum_power n m lam k : length lam = n -> (exists u, Unitary n u /\ forall i j, (i < n)%nat -> (j < n)%nat -> m i j = cturn n u (fun a c => RtoC (diagonal lam a c)) i j) ->
  trace_power n k m = RtoC (power_sum k lam).
Proof.
  intros Hl (u & Hu & E). destruct k as [|k].
  - unfold trace_power. cbn [mpow]. rewrite (CSumTo_ext n _ (fun _ => RtoC 1)) by (intros; unfold ck; now rewrite kron_refl). rewrite P_Loop.CSumTo_const. unfold power_sum. rewrite <- Hl.
    rewrite <- RtoC_mult. f_equal. clear. unfold total. induction lam as [|x lam IH]; [cbn; ring|]. cbn [length map fold_right]. rewrite S_INR, <- IH. cbn [pow]. ring.
  - assert (forall i j, (i < n)%nat -> (j < n)%nat -> mpow n (S k) m i j = cturn n u (fun a c => RtoC (diagonal (map (fun x => x ^ S k) lam) a c)) i j) as P.
    { induction k as [|k IH]; intros i j Hi Hj.
      - cbn [mpow]. rewrite (CSumTo_ext n _ (fun h => Cmult (ck j h) (m i h))) by (intros; rewrite (ck_sym j); apply Cmult_comm). rewrite (ck_pick n j (fun h => m i h)) by exact Hj. rewrite E by assumption.
        apply cturn_ext. intros a c _ _. unfold diagonal. destruct (Nat.eqb a c); [|reflexivity]. f_equal. rewrite (map_ext (fun x => x ^ 1) (fun x => x)) by (intro; ring). now rewrite map_id.
      - change (mpow n (S (S k)) m i j) with (CSumTo n (fun h => Cmult (m i h) (mpow n (S k) m h j))).
        rewrite (CSumTo_ext n _ (fun h => Cmult (cturn n u (fun a c => RtoC (diagonal lam a c)) i h) (cturn n u (fun a c => RtoC (diagonal (map (fun x => x ^ S k) lam) a c)) h j))) by (intros h Hh; now rewrite E, IH).
        rewrite (cturn_product n u _ _ i j Hu). apply cturn_ext. intros a c Ha _.
        rewrite (CSumTo_ext n _ (fun p => Cmult (ck a p) (RtoC (nth a lam 0 * diagonal (map (fun x => x ^ S k) lam) p c)))).
        + rewrite (ck_pick n a (fun p => RtoC (nth a lam 0 * diagonal (map (fun x => x ^ S k) lam) p c))) by exact Ha. f_equal. unfold diagonal. destruct (Nat.eqb a c); [|ring].
          rewrite (nth_indep (map (fun x => x ^ S k) lam) 0 (0 ^ S k)), (nth_indep (map (fun x => x ^ S (S k)) lam) 0 (0 ^ S (S k))) by (rewrite map_length; lia). rewrite (map_nth (fun x => x ^ S k)), (map_nth (fun x => x ^ S (S k))). reflexivity.
        + intros p _. unfold ck. rewrite <- !RtoC_mult. f_equal. unfold diagonal at 1, kron. destruct (Nat.eqb a p); ring. }
    unfold trace_power. rewrite (CSumTo_ext n _ (fun a => cturn n u (fun a c => RtoC (diagonal (map (fun x => x ^ S k) lam) a c)) a a)) by (intros; now apply P).
    rewrite (cturn_trace n u _ Hu), <- RtoC_SumTo. f_equal. unfold power_sum. assert (length (map (fun x => x ^ S k) lam) = n) as Hl' by now rewrite map_length. revert Hl'. generalize (map (fun x => x ^ S k) lam). clear. intros l <-.
    unfold total. induction l as [|x l IH]; [reflexivity|]. cbn [length]. rewrite SumTo_shift. cbn [fold_right]. f_equal. rewrite <- IH. apply SumTo_ext. intros i _. unfold diagonal. cbn [Nat.eqb]. now rewrite Nat.eqb_refl.
Qed.
Lemma traces_power n m lam ks : length lam = n -> (exists u, Unitary n u /\ forall i j, (i < n)%nat -> (j < n)%nat -> m i j = cturn n u (fun a c => RtoC (diagonal lam a c)) i j) ->
  traces n ks m = RtoC (power_sums ks lam).
Proof. intros Hl H. unfold traces, power_sums. induction ks as [|k ks IH]; [reflexivity|]. cbn [map fold_right]. rewrite IH, (cspectrum_power n m lam k Hl H), RtoC_mult. reflexivity. Qed.
Lemma traces_ext n ks m m' : (forall i j, (i < n)%nat -> (j < n)%nat -> m i j = m' i j) -> traces n ks m = traces n ks m'.
Proof.
  intro H. unfold traces. induction ks as [|k ks IH]; [reflexivity|]. cbn [map fold_right]. rewrite IH. f_equal. apply CSumTo_ext. intros a Ha. now apply mpow_ext.
Qed.
Lemma real_turn n q m i j : cturn n (fun a c => RtoC (q a c)) (fun a c => RtoC (m a c)) i j = RtoC (turn n q m i j).
Proof.
  unfold cturn, turn. rewrite RtoC_SumTo. apply CSumTo_ext. intros k _. rewrite RtoC_mult, RtoC_SumTo. f_equal. apply CSumTo_ext. intros l _. rewrite RtoC_mult. f_equal. unfold Cconj, RtoC. cbn. f_equal. ring.
Qed.
Lemma real_unitary n q : Orthogonal n q -> Unitary n (fun a c => RtoC (q a c)).
Proof.
  intros H k l Hk Hl. rewrite <- (H k l Hk Hl), RtoC_SumTo. apply CSumTo_ext. intros i _. rewrite RtoC_mult. f_equal. unfold Cconj, RtoC. cbn. f_equal. ring.
Qed.

(** ** The two full generators *)
Lemma clin_real K w l : clin K (fun p => RtoC (w p)) l = RtoC (lin K w l).
Proof. unfold clin, lin. rewrite RtoC_SumTo. apply CSumTo_ext. intros. now rewrite RtoC_mult. Qed.
Lemma cdot_real K v w : cdot K (fun p => RtoC (v p)) (fun p => RtoC (w p)) = RtoC (dot K v w).
Proof. unfold cdot, dot. rewrite RtoC_SumTo. apply CSumTo_ext. intros. now rewrite RtoC_mult. Qed.
Lemma goe_traces n ks : NormalAverage (n * n) (fun l => fst (traces n ks (fun i j => RtoC (goe_matrix sqrt n l i j)))) (gaussian_average 1 n ks).
Proof.
  destruct (traces_average (n * n) n (fun i j p => RtoC (gco n i j p)) 1) with (f := S (weight ks)) (ks := ks) as [H _].
  - intros i j k l Hi Hj Hk Hl. rewrite cdot_real, gco_dot by assumption. unfold ck. rewrite <- !RtoC_mult, <- RtoC_plus. f_equal. rewrite (kron_sym j k), (kron_sym j l). ring.
  - right. intros l i j Hl Hi Hj. rewrite !clin_real, <- !goe_lin by assumption. f_equal. now apply goe_symmetric.
  - lia.
  - refine (navg_ext _ _ _ _ _ H). intros l _. cbv beta. f_equal. apply traces_ext. intros i j Hi Hj. now rewrite clin_real, goe_lin.
Qed.
Lemma clin_pair K vr vi l : clin K (fun p => (vr p, vi p)) l = P_Fourth2.clin K vr vi l.
Proof. unfold clin, P_Fourth2.clin, lin. rewrite CSumTo_pair. f_equal; apply SumTo_ext; intros; cbn; ring. Qed.
Lemma cdot_pair K vr vi wr wi : cdot K (fun p => (vr p, vi p)) (fun p => (wr p, wi p)) = P_Fourth2.cdot K vr vi wr wi.
Proof.
  unfold cdot, P_Fourth2.cdot, dot. rewrite CSumTo_pair. f_equal; [|rewrite <- SumTo_add; apply SumTo_ext; intros; cbn; ring].
  replace (SumTo K (fun p => vi p * wi p)) with (- SumTo K (fun p => -1 * (vi p * wi p))) by (rewrite SumTo_scale; ring). unfold Rminus. rewrite Ropp_involutive, <- SumTo_add. apply SumTo_ext. intros; cbn; ring.
Qed.
Lemma gue_traces n ks : NormalAverage (2 * (n * n)) (fun l => fst (traces n ks (gue n l))) (gaussian_average 0 n ks).
Proof.
  destruct (traces_average (2 * (n * n)) n (fun i j p => (rco n i j p, ico n i j p)) 0) with (f := S (weight ks)) (ks := ks) as [H _].
  - intros i j k l Hi Hj Hk Hl. rewrite cdot_pair, gue_cdot by assumption. rewrite RtoC_mult. unfold ck. ring.
  - now left.
  - lia.
  - refine (navg_ext _ _ _ _ _ H). intros l _. cbv beta. f_equal. apply traces_ext. intros i j Hi Hj. now rewrite clin_pair, gue_lin.
Qed.
