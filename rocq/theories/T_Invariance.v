(** Properties C92-C94: the level variance and the rigidity under a change of scale, under reordering of the stored values, and
    on evenly spaced levels. *)
From Coq Require Import List ZArith Bool Arith Lia Reals Lra QArith Sorting.Permutation.
From Verif Require Import Base S_Order S_EigVals S_Trim M_Step M_Quad M_Loops S_Quad S_Loops P_Order P_Step P_EigVals P_TrimStat P_Quad P_Ols P_Loops P_Delta P_Invariance T_Loops.
Import ListNotations.
Local Open Scope R_scope.
Local Notation length := List.length.

(** C92. Replacing every level x by a x + b (a > 0) and every L by a L leaves the level variances, the convergence flags and
    the iteration counts as they were, for the same random numbers; the automatic iteration limit included. *)
Theorem C92_level_variance : forall a b (u L : list R) tol mx draws0 draws, 0 < a ->
  level_number_variance (map (fun x => a * x + b) u) (map (fun l => a * l) L) tol mx draws0 draws = level_number_variance u L tol mx draws0 draws.
Proof.
  intros a b u L tol mx draws0 draws Ha. unfold level_number_variance. change (fun x => a * x + b) with (aff a b).
  apply auto_limit_scale; [exact Ha| |].
  - intros x m n. now rewrite sigma_aff.
  - intros m. apply (each_map Num_R). intros i x. now rewrite sigma_aff.
Qed.
Print Assumptions C92_level_variance.
(** C92. The same for the rigidity. *)
Theorem C92_rigidity : forall a b (u L : list R) mx gridsize tol simpson draws0 draws, 0 < a -> (2 <= gridsize)%nat ->
  spectral_rigidity (map (fun x => a * x + b) u) (map (fun l => a * l) L) mx gridsize tol simpson draws0 draws =
  spectral_rigidity u L mx gridsize tol simpson draws0 draws.
Proof.
  intros a b u L mx g tol simpson draws0 draws Ha Hg. unfold spectral_rigidity. change (fun x => a * x + b) with (aff a b).
  apply auto_limit_scale; [exact Ha| |].
  - intros x m n. rewrite delta_aff; [reflexivity|exact Ha|]. unfold RIGIDITY_GRID. lia.
  - intros m. apply (each_map Num_R). intros i x. now rewrite delta_aff.
Qed.
Print Assumptions C92_rigidity.
(** Levels 0, 1, 3 with L = 2, and 1, 4, 10 with L = 6 (x -> 3 x + 1). *)
Example C92_case : let d := fun j : nat => match j with O => 1 | S O => 1 | _ => 1 # 3 end%Q in
  level_number_variance [0; 1; 3]%Q [2]%Q (1 # 100)%Q 2 d (fun _ => d) = Ok [((1 # 4)%Q, false, 2%Z)] /\
  level_number_variance [1; 4; 10]%Q [6]%Q (1 # 100)%Q 2 d (fun _ => d) = Ok [((1 # 4)%Q, false, 2%Z)] /\
  d3_sample true 5 4%Q [1; 2; 4]%Q (5 # 2)%Q = Done (19 # 300)%Q /\ d3_sample true 5 12%Q [4; 7; 13]%Q (17 # 2)%Q = Done (19 # 300)%Q.
Proof. vm_compute. repeat split; reflexivity. Qed.

(** C93. The level variances do not depend on the order in which the values are stored. *)
Theorem C93_level_variance : forall (u u' L : list R) tol mx draws0 draws, Permutation u u' ->
  level_number_variance u' L tol mx draws0 draws = level_number_variance u L tol mx draws0 draws.
Proof.
  intros u u' L tol mx draws0 draws P. unfold level_number_variance, auto_limit.
  assert (S : forall x m n d, sigma_L u' x m tol n d = sigma_L u x m tol n d) by (intros; now apply sigma_perm).
  assert (E : forall m, each 0 L (fun i x => let! o := sigma_L u' x m tol MIN_ITERS (draws i) in finished o) = each 0 L (fun i x => let! o := sigma_L u x m tol MIN_ITERS (draws i) in finished o)).
  { intros m. rewrite <- (map_id L) at 1. apply (each_map Num_R). intros i x. now rewrite S. }
  rewrite E. destruct (mx <=? 0)%Z; [|reflexivity]. destruct (np_max L) as [m|e]; [|reflexivity]. cbn [bind]. rewrite S.
  destruct (sigma_L u m _ tol _ draws0) as [o|]; [|reflexivity]. cbn [bind]. destruct (finished o); [|reflexivity]. cbn [bind]. now rewrite E.
Qed.
Print Assumptions C93_level_variance.
Example C93_case : let d := fun j : nat => match j with O => 1 | S O => 1 | _ => 1 # 3 end%Q in
  level_number_variance [3; 0; 1]%Q [2]%Q (1 # 100)%Q 2 d (fun _ => d) = Ok [((1 # 4)%Q, false, 2%Z)].
Proof. vm_compute. reflexivity. Qed.

(** C93, the rigidity: a window that does not reach beyond the value stored first contributes 0, wherever the other values are. *)
Lemma slope_zero (g : list R) n : slope g (map IZR (repeat 0%Z n)) = 0.
Proof.
  rewrite slope_R. assert (Z : Rmean (map IZR (repeat 0%Z n)) = 0).
  { unfold Rmean. assert (E : Rsum (map IZR (repeat 0%Z n)) = 0) by (induction n as [|n IH]; [reflexivity|]; cbn [repeat map]; rewrite Rsum_cons, IH; cbn; ring).
    rewrite E. unfold Rdiv. ring. }
  rewrite Z. assert (C : forall m, Sxy g (map IZR (repeat 0%Z n)) m 0 = 0).
  { intros m. unfold Sxy. revert n Z. induction g as [|x g IH]; intros [|n] _; try reflexivity. cbn [repeat map combine]. rewrite Rsum_cons, IH. { cbn. ring. }
    unfold Rmean. assert (E : Rsum (map IZR (repeat 0%Z n)) = 0) by (clear; induction n as [|n IH]; [reflexivity|]; cbn [repeat map]; rewrite Rsum_cons, IH; cbn; ring).
    rewrite E. unfold Rdiv. ring. }
  rewrite C. destruct (Req_EM_T _ _); [reflexivity|]. unfold Rdiv. ring.
Qed.
Lemma nth_repeat_R n i (x : R) : nth i (repeat x n) x = x.
Proof. revert i. induction n as [|n IH]; intros [|i]; cbn; auto. Qed.
Lemma at_zero n i : at_ (repeat (0 : R) n) i = 0.
Proof.
  unfold at_, py_get. destruct (_ || _); [reflexivity|]. destruct (nth_error (repeat 0 n) _) as [v|] eqn:E; [|reflexivity].
  apply nth_error_In, repeat_spec in E. exact E.
Qed.
Lemma early_zero simpson g L (u : list R) c e0 : (2 <= g)%nat -> head_opt u = Some e0 -> c + L / 2 <= e0 -> d3_sample simpson g L u c = Done 0.
Proof.
  intros Hg H0 Hc. unfold d3_sample. cbn [nsub nadd ndiv nofZ Num_R]. set (gr := linspace _ _ _).
  assert (Hl : length gr = g) by apply linspace_length.
  assert (E : step_function_fast u gr = Done (repeat 0%Z g)).
  { unfold step_function_fast, step_fast. rewrite H0, Hl.
    assert (Ll : last_opt gr = Some (c + L / 2)).
    { unfold last_opt. rewrite Hl. rewrite (nth_error_nth' gr 0) by lia. f_equal. unfold gr. rewrite linspace_nth by lia.
      assert (INR g - 1 <> 0). { apply le_INR in Hg. cbn in Hg. lra. } rewrite minus_INR by lia. cbn [INR]. field. exact H. }
    rewrite Ll. unfold head_opt. destruct gr as [|x0 gr'] eqn:Eg; [cbn in Hl; lia|]. cbn [nth_error]. destruct u as [|y u]; [discriminate|].
    unfold last_opt. destruct (nth_error (y :: u) (length (y :: u) - 1)) eqn:Eu; [|apply nth_error_None in Eu; cbn in Eu; lia].
    cbn [nle Num_R]. now destruct (Rle_dec (c + L / 2) e0). }
  rewrite E. cbv zeta. rewrite slope_zero.
  assert (I : intercept gr (map IZR (repeat 0%Z g)) 0 = 0).
  { rewrite intercept_R. unfold Rmean. assert (S : Rsum (map IZR (repeat 0%Z g)) = 0) by (clear; induction g as [|n IH]; [reflexivity|]; cbn [repeat map]; rewrite Rsum_cons, IH; cbn; ring).
    rewrite S. unfold Rdiv. ring. }
  rewrite I. assert (D : sq_lin_deviation (map IZR (repeat 0%Z g)) 0 0 gr = repeat 0 g).
  { clearbody gr. clear - Hl. subst g. unfold sq_lin_deviation. induction gr as [|x gr IH]; [reflexivity|]. cbn [length repeat map combine]. rewrite IH. f_equal. cbn. ring. }
  rewrite D. f_equal. enough (Q : int_simps_nonunif gr (repeat 0 g) = 0 /\ integrate_fast gr (repeat 0 g) = 0).
  { destruct Q as (Q & Q'). destruct simpson; [rewrite Q|rewrite Q']; unfold Rdiv; ring. }
  split.
  - unfold int_simps_nonunif. cbv zeta. assert (F : forall l, fold_left (fun acc j => simps_pass (ndiff gr) (repeat 0 g) acc (2 * Z.of_nat j + 1)) l n0 = 0).
    { induction l as [|j l IH]; [reflexivity|]. cbn [fold_left]. replace (simps_pass _ _ _ _) with (@n0 R _); [exact IH|]. unfold simps_pass. rewrite !at_zero. cbn. unfold Rdiv. ring. }
    rewrite F. rewrite !at_zero. cbn [nadd nsub nmul ndiv nofZ Num_R]. unfold Rdiv. destruct (_ =? 0)%Z; ring.
  - rewrite integrate_fast_trap. generalize (length gr - 1)%nat. intros n. induction n as [|n IH]; [reflexivity|]. rewrite trap_S, IH, !nth_repeat_R. unfold Rdiv. ring.
Qed.
(** C93 is false of the rigidity.  Values stored with the largest first, the smallest last: whenever every random number is at
    least L / (2 (max - min)), the result is 0; in binary64, with the same random numbers, 4, 3, 2, 1, 0 gives 0 and
    0, 1, 2, 3, 4 does not. *)
Theorem C93_rigidity_refuted :
  (forall (u : list R) hi lo L gridsize mx tol simpson mn draws, head_opt u = Some hi -> last_opt u = Some lo -> lo < hi -> (2 <= gridsize)%nat ->
     (forall j, L / (2 * (hi - lo)) <= draws j) ->
     exists conv k, delta_L u L gridsize mx mn tol simpson draws = Done (0, conv, k)) /\
  (exists (u u' : list b64) L tol draws0 draws d d' conv conv' k k', Permutation u u' /\
     spectral_rigidity u L 4 11 tol true draws0 draws = Ok [(d, conv, k)] /\
     spectral_rigidity u' L 4 11 tol true draws0 draws = Ok [(d', conv', k')] /\ neq d (b64_ofZ 0) = true /\ nlt (b64_ofZ 0) d' = true).
Proof.
  split.
  - intros u hi lo L g mx tol simpson mn draws Hh Hl Hlt Hg Hd.
    assert (S : forall j, delta_sample simpson g L u draws j = Done 0).
    { intros j. unfold delta_sample. rewrite Hh, Hl. apply (early_zero simpson g L u _ hi Hg Hh). unfold uniform. cbn [nadd nsub nmul Num_R].
      specialize (Hd j). assert (L / 2 <= (hi - lo) * draws j). { replace (L / 2) with ((hi - lo) * (L / (2 * (hi - lo)))) by (field; lra). apply Rmult_le_compat_l; lra. }
      lra. }
    destruct (delta_run_done BUFFER (fun _ => 0) _ mx mn tol S) as (m & E & Hm & _). unfold delta_L. rewrite E. do 2 eexists.
    f_equal. f_equal. f_equal. rewrite (mean_const BUFFER (fun _ => 0) ltac:(unfold BUFFER; lia) 0 m Hm) by reflexivity.
    unfold Rdiv. destruct (_ <? _)%Z; [reflexivity|]. destruct (_ =? _)%Z; ring.
  - pose (z := b64_ofZ). exists [z 4%Z; z 3%Z; z 2%Z; z 1%Z; z 0%Z], [z 0%Z; z 1%Z; z 2%Z; z 3%Z; z 4%Z], [z 2%Z], (ndiv (z 1%Z) (z 100%Z)), (fun _ => ndiv (z 1%Z) (z 2%Z)), (fun _ _ => ndiv (z 1%Z) (z 2%Z)).
    do 6 eexists. split; [|split; [vm_compute; reflexivity|split; [vm_compute; reflexivity|split; vm_compute; reflexivity]]].
    change [z 0%Z; z 1%Z; z 2%Z; z 3%Z; z 4%Z] with (rev [z 4%Z; z 3%Z; z 2%Z; z 1%Z; z 0%Z]). apply Permutation_rev.
Qed.
Print Assumptions C93_rigidity_refuted.
(** The levels 4, 3, 2, 1, 0 in this order over the reals: the rigidity of windows of length 2 comes out as 0. *)
Example C93_rigidity_case : exists conv k, delta_L [4; 3; 2; 1; 0] 2 11 7 1000 (1 / 100) true (fun _ => 1 / 2) = Done (0, conv, k).
Proof. apply (proj1 C93_rigidity_refuted) with (hi := 4) (lo := 0); try reflexivity; [lra|lia|intros j; lra]. Qed.

(** ** Evenly spaced levels *)
(** The levels a, a + 1, ..., a + n - 1. *)
Definition Fence (a : R) (n : nat) : list R := map (fun i => a + INR i) (seq 0 n).
Lemma fence_count a n x y p q : (forall i, x <= INR i <-> (p <= i)%nat) -> (forall i, INR i <= y <-> (i < q)%nat) ->
  CountIn (Fence a n) (a + x) (a + y) = (Nat.min n q - p)%nat.
Proof.
  intros Hp Hq. induction n as [|n IH]; [reflexivity|]. unfold Fence in *. rewrite seq_S, map_app. cbn [plus map].
  assert (A : forall l z lo hi, CountIn (l ++ [z]) lo hi = (CountIn l lo hi + (if Rle_dec lo z then if Rle_dec z hi then 1 else 0 else 0))%nat).
  { clear. intros l z lo hi. induction l as [|w l IH]; cbn [app CountIn]; [lia|]. rewrite IH. lia. }
  rewrite A, IH. specialize (Hp n). specialize (Hq n).
  destruct (Rle_dec (a + x) (a + INR n)) as [H|H]; [assert (p <= n)%nat by (apply Hp; lra)|assert (~ (p <= n)%nat) by (intros G; apply Hp in G; lra); lia].
  destruct (Rle_dec (a + INR n) (a + y)) as [G|G]; [assert (n < q)%nat by (apply Hq; lra)|assert (~ (n < q)%nat) by (intros G'; apply Hq in G'; lra)]; lia.
Qed.
Lemma first_ge x : 0 <= x -> exists p, (forall i, x <= INR i <-> (p <= i)%nat) /\ x <= INR p < x + 1.
Proof.
  intros Hx. destruct (archimed (- x)) as (A & B). exists (Z.to_nat (1 - up (- x))).
  assert (Hz : (0 <= 1 - up (- x))%Z). { apply le_IZR. rewrite minus_IZR. lra. }
  assert (E : INR (Z.to_nat (1 - up (- x))) = 1 - IZR (up (- x))) by (rewrite INR_IZR_INZ, Z2Nat.id, minus_IZR by exact Hz; reflexivity).
  split; [|rewrite E; lra]. intros i. split; intros H.
  - apply Nat.lt_succ_r. apply INR_lt. rewrite S_INR, E. lra.
  - apply le_INR in H. lra.
Qed.
Lemma first_gt y : 0 <= y -> exists q, (forall i, INR i <= y <-> (i < q)%nat) /\ y < INR q <= y + 1.
Proof.
  intros Hy. destruct (archimed y) as (A & B). exists (Z.to_nat (up y)).
  assert (Hz : (0 <= up y)%Z). { apply le_IZR. lra. }
  assert (E : INR (Z.to_nat (up y)) = IZR (up y)) by (rewrite INR_IZR_INZ, Z2Nat.id by exact Hz; reflexivity).
  split; [|rewrite E; lra]. intros i. split; intros H.
  - apply INR_lt. lra.
  - assert (INR (S i) <= INR (Z.to_nat (up y))) by (apply le_INR; lia). rewrite S_INR in *. lra.
Qed.
(** A window [lo, lo + L] inside the fence holds floor(L) or floor(L) + 1 levels. *)
Lemma fence_window a n lo L : 0 <= L -> a <= lo -> lo + L <= a + INR n - 1 ->
  L - 1 < INR (CountIn (Fence a n) lo (lo + L)) <= L + 1.
Proof.
  intros HL Hlo Hhi. destruct (first_ge (lo - a) ltac:(lra)) as (p & Hp & Bp). destruct (first_gt (lo + L - a) ltac:(lra)) as (q & Hq & Bq).
  pose proof (fence_count a n (lo - a) (lo + L - a) p q Hp Hq) as E. replace (a + (lo - a)) with lo in E by ring. replace (a + (lo + L - a)) with (lo + L) in E by ring.
  rewrite E. assert (Hqn : (q <= n)%nat). { apply Nat.lt_succ_r, INR_lt. rewrite S_INR. lra. }
  rewrite Nat.min_r by exact Hqn. assert (Hpq : (p <= q)%nat). { apply Nat.lt_succ_r, INR_lt. rewrite S_INR. lra. }
  rewrite minus_INR by exact Hpq. lra.
Qed.
Lemma PopVar_two l (m : Z) : Forall (fun x => x = IZR m \/ x = IZR m + 1) l -> PopVar l <= 1 / 4.
Proof.
  intros H. destruct l as [|h t]; [unfold PopVar; cbn; unfold Rdiv; rewrite Rmult_0_l; lra|]. set (l := h :: t) in *. assert (Hne : l <> []) by discriminate.
  pose proof (PopVar_about l (IZR m + 1 / 2) Hne) as E.
  assert (U : Rsum (map (fun x => (x - (IZR m + 1 / 2)) * (x - (IZR m + 1 / 2))) l) = INR (length l) * (1 / 4)).
  { clear - H. induction H as [|x l Hx _ IH]; [cbn; lra|]. cbn [map length]. rewrite Rsum_cons, IH, S_INR. destruct Hx as [-> | ->]; field. }
  rewrite U in E. assert (0 < INR (length l)) by (apply lt_0_INR; cbn; lia). pose proof (Rle_0_sqr (Rmean l - (IZR m + 1 / 2))) as Q. unfold Rsqr in Q. nra.
Qed.
Lemma fence_min a n : (1 <= n)%nat -> IsMin (Fence a n) a.
Proof.
  intros Hn. split.
  - apply in_map_iff. exists 0%nat. split; [cbn; ring|apply in_seq; lia].
  - apply Forall_forall. intros x Hx. apply in_map_iff in Hx as (i & <- & _). pose proof (pos_INR i). lra.
Qed.
Lemma fence_max a n : (1 <= n)%nat -> IsMax (Fence a n) (a + (INR n - 1)).
Proof.
  intros Hn. split.
  - apply in_map_iff. exists (n - 1)%nat. split; [rewrite minus_INR by lia; reflexivity|apply in_seq; lia].
  - apply Forall_forall. intros x Hx. apply in_map_iff in Hx as (i & <- & Hi). apply in_seq in Hi. assert (INR (S i) <= INR n) by (apply le_INR; lia). rewrite S_INR in *. lra.
Qed.

(** C94. Evenly spaced levels: as long as no window overruns the ends of the spectrum, the level variance is at most 1/4. *)
Theorem C94_inside : forall a n L mx tol mn draws, 0 <= L -> (1 <= n)%nat ->
  (forall j, a <= a + (INR n - 1) * draws j - L / 2 /\ a + (INR n - 1) * draws j + L / 2 <= a + (INR n - 1)) ->
  exists s conv k, sigma_L (Fence a n) L mx tol mn draws = Ok (Done (s, conv, k)) /\ 0 <= s <= 1 / 4.
Proof.
  intros a n L mx tol mn draws HL Hn Hd. assert (Hne : Fence a n <> []) by (destruct n; [lia|discriminate]).
  destruct (C35_population_variance (Fence a n) L mx tol mn draws Hne) as (lo & hi & s & conv & k & Hlo & Hhi & E & _ & H). cbv zeta in H. destruct H as (Es & (H0 & _) & _).
  apply (IsMin_unique _ _ _ (fence_min a n Hn)) in Hlo. apply (IsMax_unique _ _ _ (fence_max a n Hn)) in Hhi. subst lo hi.
  exists s, conv, (Z.of_nat k). split; [exact E|]. split; [exact H0|]. rewrite Es. apply (PopVar_two _ (Int_part L)). apply Forall_forall. intros x Hx.
  apply in_map_iff in Hx as (j & <- & _). unfold WindowCount. cbv zeta. destruct (Hd j) as (A & B).
  replace (a + (INR n - 1) - a) with (INR n - 1) by ring. set (c := a + (INR n - 1) * draws j) in *.
  pose proof (fence_window a n (c - L / 2) L HL ltac:(lra) ltac:(lra)) as W. replace (c - L / 2 + L) with (c + L / 2) in W by field.
  set (w := CountIn _ _ _) in *. destruct (base_Int_part L) as (P & Q). rewrite INR_IZR_INZ in *.
  assert (Int_part L - 1 < Z.of_nat w)%Z by (apply lt_IZR; rewrite minus_IZR; lra).
  assert (Z.of_nat w < Int_part L + 2)%Z by (apply lt_IZR; rewrite plus_IZR; lra).
  assert (Z.of_nat w = Int_part L \/ Z.of_nat w = Int_part L + 1)%Z as [-> | ->] by lia; [now left|right; now rewrite plus_IZR].
Qed.
Print Assumptions C94_inside.
(** C94 is false of the code in general: window centres are drawn from the whole spectrum, so windows near the ends are partly
    empty.  For 4 m + 1 levels one apart, L = 2 m, two draws give m^2 / 4. *)
Theorem C94_refuted : forall m tol mn, (1 <= m)%nat -> exists draws conv, (forall j, 0 <= draws j < 1) /\
  sigma_L (Fence 0 (4 * m + 1)) (INR (2 * m)) 2 tol mn draws = Ok (Done (INR m * INR m / 4, conv, 2%Z)).
Proof.
  intros m tol mn Hm. set (u := Fence 0 (4 * m + 1)). assert (Hne : u <> []) by (unfold u; replace (4 * m + 1)%nat with (S (4 * m)) by lia; discriminate).
  pose (draws := fun j : nat => match j with 2%nat => 1 / 2 | _ => 0 end). exists draws.
  destruct u as [|h t] eqn:Eu; [congruence|]. destruct (sigma_L_run h t (INR (2 * m)) 2 tol mn draws) as (k & E & Hk & Hk' & He & _).
  assert (k = 2%nat). { destruct (Nat.eq_dec k 1) as [->|]; [|lia]. destruct (He ltac:(lia)) as (_ & G & _). now vm_compute in G. } subst k.
  exists (spread_below (s_buf (s_after BUFFER (h :: t) (INR (2 * m)) (fun i => uniform (nmin h t) (nmax h t) (draws i)) 2)) tol). split.
  { intros j. unfold draws. destruct j as [|[|[|j]]]; lra. }
  rewrite E. do 4 f_equal. clear E He. rewrite sigma_PopVar by lia. unfold cnt. rewrite <- Eu.
  assert (El : nmin h t = 0). { apply (IsMin_unique u); unfold u; [unfold u in Eu; rewrite Eu; apply nmin_IsMin|apply fence_min; lia]. }
  assert (Eh : nmax h t = 4 * INR m).
  { apply (IsMax_unique u); unfold u; [unfold u in Eu; rewrite Eu; apply nmax_IsMax|]. replace (4 * INR m) with (0 + (INR (4 * m + 1) - 1)); [apply fence_max; lia|].
    rewrite plus_INR, mult_INR. cbn. ring. }
  rewrite El, Eh. unfold uniform, draws. cbn [seq map nadd nsub nmul Num_R].
  assert (N : forall x i, x = INR i -> forall j, INR j <= x <-> (j < S i)%nat). { intros x i -> j. split; intros H; [apply INR_le in H; lia|apply le_INR; lia]. }
  assert (C1 : CountIn u (0 + (4 * INR m - 0) * 0 - INR (2 * m) / 2) (0 + (4 * INR m - 0) * 0 + INR (2 * m) / 2) = S m).
  { replace (0 + (4 * INR m - 0) * 0 - INR (2 * m) / 2) with (0 + (- INR m)) by (rewrite mult_INR; cbn; field).
    replace (0 + (4 * INR m - 0) * 0 + INR (2 * m) / 2) with (0 + INR m) by (rewrite mult_INR; cbn; field).
    unfold u. rewrite (fence_count 0 _ _ _ 0 (S m)); [lia| |now apply N]. intros i. pose proof (pos_INR i). pose proof (pos_INR m). split; [lia|lra]. }
  assert (C2 : CountIn u (0 + (4 * INR m - 0) * (1 / 2) - INR (2 * m) / 2) (0 + (4 * INR m - 0) * (1 / 2) + INR (2 * m) / 2) = S (2 * m)).
  { replace (0 + (4 * INR m - 0) * (1 / 2) - INR (2 * m) / 2) with (0 + INR m) by (rewrite mult_INR; cbn; field).
    replace (0 + (4 * INR m - 0) * (1 / 2) + INR (2 * m) / 2) with (0 + INR (3 * m)) by (rewrite !mult_INR; cbn; field).
    unfold u. rewrite (fence_count 0 _ _ _ m (S (3 * m))); [lia| |now apply N]. intros i. split; intros H; [now apply INR_le in H|now apply le_INR]. }
  rewrite C1, C2. unfold PopVar, Rmean. cbn [Rsum map fold_right]. rewrite !S_INR, mult_INR. cbn. field.
Qed.
Print Assumptions C94_refuted.
(** Nine levels, L = 4: windows inside give counts 5 and 4; a window about the first level gives 3. *)
Example C94_case : let u := map inject_Z [0; 1; 2; 3; 4; 5; 6; 7; 8]%Z in
  sigma_L u 4%Q 2%Z (1 # 100)%Q 0%Z (fun j => match j with 1%nat => 1 # 2 | _ => 9 # 16 end)%Q = Ok (Done ((1 # 4)%Q, false, 2%Z)) /\
  sigma_L u 4%Q 2%Z (1 # 100)%Q 0%Z (fun j => match j with 1%nat => 0 | _ => 1 # 2 end)%Q = Ok (Done (1%Q, false, 2%Z)).
Proof. vm_compute. split; reflexivity. Qed.
