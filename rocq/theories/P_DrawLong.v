(** Proofs about the figures of the long-range observables. *)
From Coq Require Import String List ZArith Bool Arith Lia Reals Lra Permutation.
From Coquelicot Require Import Coquelicot.
From Verif Require Import Base S_Order S_EigVals S_Trim S_Quad S_Loops S_Draw M_Step M_EigVals M_Quad M_Trim M_Ensemble M_Brody M_Draw
  P_Order P_EigVals P_Trim P_TrimStat P_Ols P_Loops P_Draw.
Import ListNotations.
Local Open Scope R_scope.
Local Notation length := List.length.

Lemma masked_rows b mask l : masked b mask l = Rows b mask l.
Proof.
  unfold masked. revert l. induction mask as [|m mask IH]; intros [|x l]; try reflexivity.
  cbn [combine filter fst Rows]. destruct (Bool.eqb m b); cbn [map snd]; now rewrite IH.
Qed.

(** *** The closed form of the number variance *)
Section Closed.
Context (Si : R -> R) (Si_inf : R).
Hypothesis Si_derive : forall x, 0 < x -> is_derive Si x (sin x / x).
Hypothesis Si_lim : is_lim Si p_infty Si_inf.

Let G (t : R) : R := Si (2 * t) - sin t ^ 2 / t.
Lemma G_derive x : 0 < x -> is_derive G x ((sin x / x) ^ 2).
Proof.
  intro H. unfold G.
  assert (is_derive (fun t => Si (2 * t)) x (2 * (sin (2 * x) / (2 * x)))) as D1.
  { apply (is_derive_comp Si (fun t => 2 * t)); [apply Si_derive; lra|]. auto_derive; [exact I|ring]. }
  assert (is_derive (fun t => sin t ^ 2 / t) x ((2 * sin x * cos x * x - sin x ^ 2) / x ^ 2)) as D2.
  { auto_derive; [lra|]. field. lra. }
  replace ((sin x / x) ^ 2) with (minus (2 * (sin (2 * x) / (2 * x))) ((2 * sin x * cos x * x - sin x ^ 2) / x ^ 2)).
  - apply (is_derive_minus (V := R_NormedModule) (fun t => Si (2 * t)) (fun t => sin t ^ 2 / t)); assumption.
  - unfold minus, plus, opp; cbn. rewrite sin_2a. field. lra.
Qed.
Lemma sinc_cont x : 0 < x -> continuous (fun r => (sin r / r) ^ 2) x.
Proof. intro H. apply (ex_derive_continuous (K := R_AbsRing) (V := R_NormedModule)). auto_derive. lra. Qed.
Lemma sinc_RInt a b : 0 < a -> a <= b -> RInt (fun r => (sin r / r) ^ 2) a b = G b - G a.
Proof.
  intros Ha Hab. apply is_RInt_unique. apply (is_RInt_derive G).
  - intros x Hx. rewrite Rmin_left in Hx by lra. apply G_derive. lra.
  - intros x Hx. rewrite Rmin_left in Hx by lra. apply sinc_cont. lra.
Qed.
Lemma G_lim : is_lim G p_infty Si_inf.
Proof.
  unfold G. replace (Finite Si_inf) with (Rbar_minus Si_inf 0) by (cbn; f_equal; ring).
  apply is_lim_minus'; [|].
  - apply (is_lim_comp Si (fun t => 2 * t) p_infty Si_inf p_infty); [exact Si_lim| |].
    + apply is_lim_spec. intro M. exists (M / 2). intros x Hx. lra.
    + exists 0. intros x _. discriminate.
  - apply (is_lim_le_le_loc (fun _ => 0) (fun t => / t)).
    + exists 1. intros x Hx. split.
      * apply Rmult_le_pos; [apply pow2_ge_0|]. left. apply Rinv_0_lt_compat. lra.
      * unfold Rdiv. rewrite <- (Rmult_1_l (/ x)) at 2. apply Rmult_le_compat_r; [left; apply Rinv_0_lt_compat; lra|].
        pose proof (sin2_cos2 x) as S. unfold Rsqr in S. nra.
    + apply is_lim_const.
    + replace (Finite 0) with (Rbar_inv p_infty) by reflexivity. apply is_lim_inv; [apply is_lim_id|discriminate].
Qed.
Lemma sinc_tail (a v : R) : 0 < a -> is_lim (fun b => RInt (fun r => (sin r / r) ^ 2) a b) p_infty v -> v = Si_inf - Si (2 * a) + sin a ^ 2 / a.
Proof.
  intros Ha H.
  assert (is_lim (fun b => RInt (fun r => (sin r / r) ^ 2) a b) p_infty (Si_inf - G a)) as H'.
  { apply (is_lim_ext_loc (fun b => G b - G a)).
    - exists a. intros x Hx. symmetry. apply sinc_RInt; lra.
    - replace (Finite (Si_inf - G a)) with (Rbar_minus Si_inf (G a)) by reflexivity. apply is_lim_minus'; [apply G_lim|apply is_lim_const]. }
  apply is_lim_unique in H. apply is_lim_unique in H'. rewrite H in H'. injection H' as ->. unfold G. ring.
Qed.
End Closed.

Lemma exact_closed (g : R) (Si Ci quad : R -> R) (Si_inf x : R) :
  SineIntegral Si Si_inf -> Si_inf = PI / 2 -> SincSquareTail quad -> 0 < x ->
  exact g Si Ci Si_inf quad x = OrthogonalVariance Si Ci g x.
Proof.
  intros [HS HL] HI HQ Hx. pose proof PI_RGT_0 as HP. unfold exact. cbv zeta.
  assert (0 < PI * x) as Hpx by nra. rewrite (sinc_tail Si Si_inf HS HL _ _ Hpx (HQ _ Hpx)). rewrite HI.
  unfold OrthogonalVariance, UnitaryVariance.
  replace (2 * (PI * x)) with (2 * PI * x) by ring.
  replace (cos (2 * PI * x)) with (1 - 2 * sin (PI * x) * sin (PI * x)) by (replace (2 * PI * x) with (2 * (PI * x)) by ring; now rewrite cos_2a_sin).
  field. split; lra.
Qed.

(** Such functions exist. *)
Definition kern (t : R) : R := (1 + cos t) / t ^ 2.
Lemma kern_cont x : 0 < x -> continuous kern x.
Proof. intro H. apply (ex_derive_continuous (K := R_AbsRing) (V := R_NormedModule)). unfold kern. auto_derive. apply Rgt_not_eq; nra. Qed.
Lemma kern_int a b : 0 < a -> 0 < b -> ex_RInt kern a b.
Proof.
  intros Ha Hb. apply (ex_RInt_continuous (V := R_CompleteNormedModule)). intros z Hz. apply kern_cont. unfold Rmin in Hz. destruct (Rle_dec a b); lra.
Qed.
Lemma kern_nonneg t : 0 < t -> 0 <= kern t.
Proof. intro H. unfold kern. pose proof (COS_bound t). apply Rmult_le_pos; [lra|]. left. apply Rinv_0_lt_compat. nra. Qed.
Lemma kern_incr a b : 1 <= a -> a <= b -> RInt kern 1 a <= RInt kern 1 b.
Proof.
  intros Ha Hab. rewrite <- (RInt_Chasles kern 1 a b) by (apply kern_int; lra).
  assert (0 <= RInt kern a b) by (apply RInt_ge_0; [exact Hab|apply kern_int; lra|intros; apply kern_nonneg; lra]).
  change (RInt kern 1 a <= RInt kern 1 a + RInt kern a b). lra.
Qed.
Lemma kern_bound b : 1 <= b -> RInt kern 1 b <= 2.
Proof.
  intro Hb.
  assert (is_RInt (fun t => 2 / t ^ 2) 1 b (minus (- 2 / b) (- 2 / 1))) as I1.
  { apply (is_RInt_derive (V := R_CompleteNormedModule) (fun t => - 2 / t)).
    - intros t Ht. rewrite Rmin_left in Ht by lra. auto_derive; [lra|]. field. lra.
    - intros t Ht. rewrite Rmin_left in Ht by lra. apply (ex_derive_continuous (K := R_AbsRing) (V := R_NormedModule)). auto_derive. apply Rgt_not_eq; nra. }
  apply Rle_trans with (RInt (fun t => 2 / t ^ 2) 1 b).
  - apply RInt_le; [exact Hb|apply kern_int; lra|eexists; exact I1|]. intros t Ht. unfold kern. pose proof (COS_bound t).
    apply Rmult_le_compat_r; [left; apply Rinv_0_lt_compat; nra|lra].
  - rewrite (is_RInt_unique _ _ _ _ I1). unfold minus, plus, opp; cbn. assert (0 < / b) by (apply Rinv_0_lt_compat; lra). unfold Rdiv. lra.
Qed.
Lemma kern_lim : exists l : R, is_lim (fun b => RInt kern 1 b) p_infty l.
Proof.
  destruct (completeness (fun v => exists M, 1 <= M /\ v = RInt kern 1 M)) as (l & Hu & Hl).
  - exists 2. intros v (M & HM & ->). now apply kern_bound.
  - exists (RInt kern 1 1), 1. split; [lra|reflexivity].
  - exists l. apply is_lim_spec. intros eps.
    assert (E : exists M, 1 <= M /\ l - eps < RInt kern 1 M).
    { destruct (Classical_Prop.classic (exists M, 1 <= M /\ l - eps < RInt kern 1 M)) as [G|G]; [exact G|exfalso].
      assert (B : l <= l - eps). { apply Hl. intros v (M & HM & ->). destruct (Rle_or_lt (RInt kern 1 M) (l - eps)) as [Q|Q]; [exact Q|]. destruct G. now exists M. }
      destruct eps as (e & He). cbn in B. lra. }
    destruct E as (M0 & HM0 & E). exists M0. intros M HM. pose proof (kern_incr M0 M ltac:(lra) ltac:(lra)). assert (RInt kern 1 M <= l) by (apply Hu; exists M; split; [lra|reflexivity]).
    destruct eps as (e & He). cbn in *. apply Rabs_def1; lra.
Qed.
Lemma sine_integral_exists v : exists Si, SineIntegral Si v.
Proof.
  destruct kern_lim as (l & Hl).
  exists (fun x => v + l - (cos x + 1) / x - RInt kern 1 x). split.
  - intros x Hx.
    assert (is_derive (fun x => RInt kern 1 x) x (kern x)) as D1.
    { apply is_derive_RInt with (a := 1).
      - exists (mkposreal x Hx). intros y Hy. apply (@RInt_correct R_CompleteNormedModule). apply kern_int; [lra|]. apply Rabs_def2 in Hy. unfold minus, plus, opp in Hy; cbn in Hy. lra.
      - now apply kern_cont. }
    assert (is_derive (fun x => v + l - (cos x + 1) / x) x (sin x / x + kern x)) as D2.
    { auto_derive; [lra|]. unfold kern. field. lra. }
    replace (sin x / x) with (minus (sin x / x + kern x) (kern x)) by (unfold minus, plus, opp; cbn; ring).
    apply (is_derive_minus (V := R_NormedModule) (fun x => v + l - (cos x + 1) / x) (fun x => RInt kern 1 x)); assumption.
  - replace (Finite v) with (Rbar_minus (v + l - 0) l) by (cbn; f_equal; ring). apply is_lim_minus'; [|exact Hl].
    replace (Finite (v + l - 0)) with (Rbar_minus (v + l) 0) by reflexivity. apply is_lim_minus'; [apply is_lim_const|].
    apply (is_lim_le_le_loc (fun _ => 0) (fun t => 2 * / t)).
    + exists 1. intros x Hx. pose proof (COS_bound x). assert (0 < / x) by (apply Rinv_0_lt_compat; lra). unfold Rdiv. split; nra.
    + apply is_lim_const.
    + replace (Finite 0) with (Rbar_mult 2 (Rbar_inv p_infty)) by (cbn; f_equal; ring). apply is_lim_scal_l. apply is_lim_inv; [apply is_lim_id|discriminate].
Qed.
Lemma sinc_tail_exists : exists q, SincSquareTail q.
Proof.
  destruct (sine_integral_exists 0) as (Si & HS & HL). exists (fun a => 0 - (Si (2 * a) - sin a ^ 2 / a)). intros a Ha.
  apply (is_lim_ext_loc (fun b => (Si (2 * b) - sin b ^ 2 / b) - (Si (2 * a) - sin a ^ 2 / a))).
  - exists a. intros x Hx. symmetry. apply sinc_RInt; [exact HS|lra|lra].
  - replace (Finite (0 - (Si (2 * a) - sin a ^ 2 / a))) with (Rbar_minus 0 (Si (2 * a) - sin a ^ 2 / a)) by reflexivity.
    apply is_lim_minus'; [apply (G_lim Si 0 HL)|apply is_lim_const].
Qed.

(** *** Row labels *)
Section Labels.
Context (g : R) (Si Ci : R -> R) (Si_inf : R) (quad : R -> R).
Local Notation loop := (goe_loop g Si Ci Si_inf quad).

(** What the loop stores for the value [s] when the row looked up holds [l]. *)
Definition goe_value (l s : R) : R := if Rlt_dec l 10 then exact g Si Ci Si_inf quad s else levelvar_at g GOE s.

Lemma lookup_none (index : list Z) (L : list R) i : ~ In i index -> filter (fun p => Z.eqb (fst p) i) (combine index L) = [].
Proof.
  revert L. induction index as [|z index IH]; intros [|x L] H; try reflexivity. cbn [combine filter fst].
  destruct (Z.eqb_spec z i) as [->|E]; [exfalso; apply H; now left|]. apply IH. intro K. apply H. now right.
Qed.
Lemma lookup_some (index : list Z) (L : list R) i k v : NoDup index -> nth_error index k = Some i -> nth_error L k = Some v ->
  filter (fun p => Z.eqb (fst p) i) (combine index L) = [(i, v)].
Proof.
  intro H. revert L k. induction H as [|z index Hz H IH]; intros L k K1 K2; [destruct k; discriminate|].
  destruct L as [|x L]; [destruct k; discriminate|]. cbn [combine filter fst]. destruct k as [|k].
  - injection K1 as ->. injection K2 as ->. rewrite Z.eqb_refl, lookup_none by assumption. reflexivity.
  - cbn [nth_error] in K1, K2. destruct (Z.eqb_spec z i) as [->|E]; [|eauto].
    exfalso. apply Hz. eapply nth_error_In. exact K1.
Qed.
Lemma series_get_some index L i k v : NoDup index -> nth_error index k = Some i -> nth_error L k = Some v -> series_get index L i = Ok v.
Proof. intros H K1 K2. unfold series_get. rewrite (lookup_some _ _ _ _ _ H K1 K2). reflexivity. Qed.
Lemma series_get_none index L i : ~ In i index -> series_get index L i = Raise KeyError.
Proof. intro H. unfold series_get. rewrite lookup_none by assumption. reflexivity. Qed.

Lemma loop_ok index L rest i :
  (forall j, (i <= j < i + Z.of_nat (length rest))%Z -> exists v, series_get index L j = Ok v) ->
  exists ys, loop index L rest i = Ok ys /\ length ys = length rest /\
    forall j s l, nth_error rest j = Some s -> series_get index L (i + Z.of_nat j) = Ok l -> nth_error ys j = Some (goe_value l s).
Proof.
  revert i. induction rest as [|s rest IH]; intros i H.
  - exists []. split; [reflexivity|]. split; [reflexivity|]. intros [|j] ? ? K; discriminate.
  - cbn [goe_loop]. destruct (H i) as [l Hl]; [cbn [length]; lia|]. rewrite Hl. cbn [bind].
    destruct (IH (i + 1)%Z) as (ys & E & Hlen & Hys).
    { intros j Hj. apply H. cbn [length]. lia. }
    rewrite E. cbn [bind]. eexists. split; [reflexivity|]. split; [cbn [length]; now rewrite Hlen|].
    intros [|j] s' l' K K'.
    + injection K as <-. rewrite Z.add_0_r, Hl in K'. injection K' as <-. cbn [nth_error]. f_equal.
      rewrite lt_dec_b. change (nofZ 10) with 10. unfold goe_value. destruct (Rlt_dec l 10); reflexivity.
    + cbn [nth_error] in *. apply (Hys j s' l' K). rewrite <- K'. f_equal. lia.
Qed.
Lemma loop_key index L rest i j : NoDup index -> length index = length L -> (i <= j < i + Z.of_nat (length rest))%Z -> ~ In j index ->
  loop index L rest i = Raise KeyError.
Proof.
  intros HN HL. revert i. induction rest as [|s rest IH]; intros i Hj Hn; [cbn [length] in Hj; lia|].
  cbn [goe_loop]. destruct (in_dec Z.eq_dec i index) as [Hi|Hi].
  - apply In_nth_error in Hi. destruct Hi as [k Hk]. assert (k < length L)%nat as Hkl by (rewrite <- HL; apply nth_error_Some; rewrite Hk; discriminate).
    destruct (nth_error L k) as [v|] eqn:Ev; [|apply nth_error_None in Ev; lia].
    rewrite (series_get_some _ _ _ _ _ HN Hk Ev). cbn [bind]. rewrite IH; [reflexivity| |assumption].
    assert (i <> j) by (intros ->; apply Hn; eapply nth_error_In; exact Hk). cbn [length] in Hj. lia.
  - rewrite series_get_none by assumption. reflexivity.
Qed.
Definition RowNumbers (n : nat) : list Z := map Z.of_nat (seq 0 n).
Lemma row_numbers_NoDup n : NoDup (RowNumbers n).
Proof. apply FinFun.Injective_map_NoDup; [|apply seq_NoDup]. intros x y. apply Nat2Z.inj. Qed.
Lemma row_numbers_in n z : In z (RowNumbers n) <-> (0 <= z < Z.of_nat n)%Z.
Proof.
  unfold RowNumbers. rewrite in_map_iff. split.
  - intros (x & <- & H). apply in_seq in H. lia.
  - intro H. exists (Z.to_nat z). rewrite Z2Nat.id by lia. split; [reflexivity|]. apply in_seq. lia.
Qed.
Lemma row_numbers_nth n k : (k < n)%nat -> nth_error (RowNumbers n) k = Some (Z.of_nat k).
Proof.
  intro H. unfold RowNumbers. apply map_nth_error. rewrite (nth_error_nth' _ 0%nat) by (rewrite seq_length; lia). now rewrite seq_nth.
Qed.
Lemma loop_permuted index L : Permutation (RowNumbers (length L)) index ->
  exists ys, loop index L L 0 = Ok ys /\ length ys = length L /\
    forall j k s l, nth_error L j = Some s -> nth_error index k = Some (Z.of_nat j) -> nth_error L k = Some l -> nth_error ys j = Some (goe_value l s).
Proof.
  intro P. assert (NoDup index) as HN by (eapply Permutation_NoDup; [exact P|apply row_numbers_NoDup]).
  assert (length index = length L) as HL by (rewrite <- (Permutation_length P); unfold RowNumbers; now rewrite map_length, seq_length).
  destruct (loop_ok index L L 0) as (ys & E & Hlen & Hys).
  - intros j Hj. assert (In j index) as Hi by (eapply Permutation_in; [exact P|]; apply row_numbers_in; lia).
    apply In_nth_error in Hi. destruct Hi as [k Hk]. assert (k < length L)%nat by (rewrite <- HL; apply nth_error_Some; rewrite Hk; discriminate).
    destruct (nth_error L k) as [v|] eqn:Ev; [|apply nth_error_None in Ev; lia]. exists v. eapply series_get_some; eassumption.
  - exists ys. split; [assumption|]. split; [assumption|]. intros j k s l H1 H2 H3. apply Hys; [assumption|].
    eapply series_get_some; eassumption.
Qed.
Lemma nth_error_ext_eq {A} (l l' : list A) : length l = length l' -> (forall j x, nth_error l j = Some x -> nth_error l' j = Some x) -> l = l'.
Proof.
  revert l'. induction l as [|a l IH]; intros [|b l'] H K; try discriminate; [reflexivity|]. f_equal.
  - specialize (K 0%nat a eq_refl). cbn in K. congruence.
  - apply IH; [now injection H|]. intros j x Hj. apply (K (S j) x Hj).
Qed.
Lemma loop_rows L : loop (RowNumbers (length L)) L L 0 = Ok (map (fun l => goe_value l l) L).
Proof.
  destruct (loop_permuted (RowNumbers (length L)) L (Permutation_refl _)) as (ys & E & Hlen & Hys). rewrite E. f_equal.
  symmetry. apply nth_error_ext_eq; [now rewrite map_length|]. intros j x Hj. rewrite nth_error_map in Hj.
  destruct (nth_error L j) as [s|] eqn:Es; cbn in Hj; [|discriminate]. injection Hj as <-.
  apply (Hys j j s s Es); [|assumption]. apply row_numbers_nth. apply nth_error_Some. rewrite Es. discriminate.
Qed.
End Labels.

(** ** The step function figure *)
Lemma asc_map_seq (f : nat -> R) n k : (forall i j, (i <= j)%nat -> f i <= f j) -> Ascending (map f (seq k n)).
Proof.
  intro H. apply StronglySorted_R. revert k. induction n as [|n IH]; intro k; cbn [seq map]; constructor; [apply IH|].
  apply Forall_forall. intros y Hy. apply in_map_iff in Hy. destruct Hy as (j & <- & Hj). apply in_seq in Hj. apply H. lia.
Qed.
Lemma even_asc lo hi n : (2 <= n)%nat -> lo <= hi -> Ascending (EvenGrid lo hi n).
Proof.
  intros Hn H. unfold EvenGrid. apply asc_map_seq. intros i j Hij. apply Rplus_le_compat_l. apply Rmult_le_compat_r; [|now apply le_INR].
  assert (2 <= INR n) by (change 2 with (INR 2); now apply le_INR). apply Rmult_le_pos; [lra|]. left. apply Rinv_0_lt_compat. lra.
Qed.
Lemma even_last lo hi n : (2 <= n)%nat -> last_opt (EvenGrid lo hi n) = Some hi.
Proof.
  intro Hn. unfold last_opt, EvenGrid. rewrite map_length, seq_length.
  rewrite (map_nth_error _ (n - 1) (seq 0 n) (d := (n - 1)%nat)).
  - f_equal. assert (2 <= INR n) by (change 2 with (INR 2); now apply le_INR). rewrite minus_INR by lia. change (INR 1) with 1. field. lra.
  - rewrite (nth_error_nth' _ 0%nat) by (rewrite seq_length; lia). now rewrite seq_nth by lia.
Qed.

(** ** Trimmed means *)
Lemma asc_split (l : list R) k x y : Ascending l -> In x (firstn k l) -> In y (skipn k l) -> x <= y.
Proof.
  intro H. apply StronglySorted_R in H. revert k. induction H as [|a t Hs IH Ha]; intros k Hx Hy; [destruct k; destruct Hx|].
  destruct k as [|k]; [destruct Hx|]. cbn [firstn skipn] in *. destruct Hx as [<-|Hx]; [|eauto].
  rewrite Forall_forall in Ha. apply Ha. rewrite <- (firstn_skipn k t). apply in_or_app. now right.
Qed.
Lemma trim_mean_spec a : TrimmedMean a (trim_mean a).
Proof.
  unfold trim_mean. cbv zeta. set (k := Nat.div (length a) 5). set (s := np_sort a).
  assert (5 * k <= length a < 5 * (k + 1))%nat as Hk.
  { unfold k. pose proof (Nat.div_mod (length a) 5 ltac:(lia)). pose proof (Nat.mod_upper_bound (length a) 5 ltac:(lia)). lia. }
  clearbody k. assert (length s = length a) as Hs by (unfold s; symmetry; apply Permutation_length, sort_perm).
  assert (Ascending s) as Ha by apply sort_asc. assert (Permutation a s) as Hp by apply sort_perm. clearbody s.
  set (m := (length a - k - k)%nat).
  exists (firstn k s), (firstn m (skipn k s)), (skipn m (skipn k s)).
  split; [rewrite (firstn_skipn m (skipn k s)), firstn_skipn; exact Hp|].
  split. { intros x y Hx Hy. apply (asc_split s k); [assumption|assumption|]. rewrite <- (firstn_skipn m (skipn k s)). apply in_or_app. now left. }
  split. { intros x y Hx Hy. apply (asc_split (skipn k s) m); [|assumption|assumption]. apply StronglySorted_R. apply SS_skipn. now apply StronglySorted_R. }
  assert (length (firstn k s) = k) as Lk by (rewrite firstn_length; lia). rewrite Lk.
  split; [rewrite !skipn_length; unfold m; lia|]. split; [exact Hk|]. apply nmean_R.
Qed.
Lemma neq_R_true (x y : R) : neq x y = true <-> x = y.
Proof. cbn. destruct (Req_EM_T x y); split; intro; try congruence; discriminate. Qed.
