(** Properties C32, C57-C59, C62, C63: detrending, signal cleaning, numerical derivative and the Gompertz curve. *)
From Coq Require Import String List ZArith Bool Arith Lia Reals Lra QArith.
From Verif Require Import Base S_Order S_EigVals S_Trim M_Step M_EigVals M_Enum M_Quad M_Compare M_Signal S_Quad S_Loops S_Compare S_Signal
  P_Order P_Step P_EigVals P_TrimStat P_Quad P_Ols P_Compare P_Loops P_Signal.
Import ListNotations.
Local Open Scope R_scope.
Local Notation length := List.length.

(** ** C32 *)
Section History.
Context {F : Type} {N : Num F}.
Variable stats : list F -> list F -> F * F * F.
Variable emd : list F -> result (list (list F)).
Variable polyfit2 : list F -> list F -> result (F -> F).
(** [After k v o]: [o] came from an object holding the values [v] that was never detrended, by [k] successful calls. *)
Inductive After : nat -> list F -> eigenvalues -> Prop :=
| After_0 v kind : After 0 v (mkeigs v kind None)
| After_S k v o m o' : After k v o -> eigenvalues_detrend stats emd polyfit2 o m = Ok o' -> After (S k) v o'.
End History.
Lemma np_minus_length {F} {N : Num F} (a b d : list F) : length a = length b -> np_minus a b = Ok d -> length d = length a.
Proof. intros H. unfold np_minus. rewrite H, Nat.eqb_refl. intros E. assert (d = map (fun p => nsub (fst p) (snd p)) (combine a b)) by congruence. subst d. rewrite map_length, combine_length. lia. Qed.
Lemma last_opt_In {A} (l : list A) x : last_opt l = Some x -> In x l.
Proof. unfold last_opt. apply nth_error_In. Qed.
Lemma detrend_length {F} {N : Num F} stats emd polyfit2 (v d : list F) m : (forall s imfs t, emd s = Ok imfs -> In t imfs -> length t = length s) ->
  detrend stats emd polyfit2 v m = Ok d -> length d = length v.
Proof.
  intros He. unfold detrend. destruct (M_Enum.validate DetrendMethod m) as [m'|]; [|discriminate]. cbn [bind].
  assert (HA : length (arange (length v)) = length v) by (unfold arange; now rewrite map_length, seq_length).
  destruct m' as [s|s|]; cbn [bind]; try discriminate. destruct (String.eqb s "EMD").
  - destruct (emd v) as [imfs|] eqn:E; [|discriminate]. cbn [bind]. destruct (last_opt imfs) as [t|] eqn:Et; [|discriminate]. cbn [bind].
    intros H. eapply np_minus_length; [|exact H]. symmetry. eapply He; [exact E|]. now apply last_opt_In.
  - destruct (String.eqb s "Linear").
    + destruct (linregress stats (arange (length v)) v) as [r|]; [|discriminate]. cbn [bind]. destruct (firstn 2 r) as [|a [|b [|]]]; try discriminate. cbn [bind].
      intros H. eapply np_minus_length; [|exact H]. now rewrite map_length.
    + destruct (String.eqb s "Quadratic"); [|discriminate]. destruct (polyfit2 (arange (length v)) v) as [p|]; [|discriminate]. cbn [bind].
      intros H. eapply np_minus_length; [|exact H]. now rewrite map_length.
Qed.

(** Whatever numbers, methods and external EMD/polynomial fits: an object is the result of at most one detrending, and any further
    call on a detrended object raises. *)
Theorem C32_at_most_once {F} {N : Num F} stats emd polyfit2 : forall k (v : list F) o, After stats emd polyfit2 k v o ->
  (k <= 1)%nat /\ (k = 1%nat -> forall m, eigenvalues_detrend stats emd polyfit2 o m = Raise ValueError).
Proof.
  intros k v o H.
  assert (G : (k = 0%nat \/ k = 1%nat) /\ (k = 1%nat -> e_detrending o <> None)).
  { induction H as [|k v o m o' H IH E]; [split; [now left|discriminate]|]. destruct IH as ([->| ->] & IH).
    - split; [now right|]. intros _. unfold eigenvalues_detrend in E. destruct (e_detrending o); [discriminate|]. destruct (detrend _ _ _ _ _); [|discriminate]. cbn [bind] in E.
      assert (o' = new_eigenvalues a None (Some m)) by congruence. subst o'. discriminate.
    - exfalso. unfold eigenvalues_detrend in E. destruct (e_detrending o); [discriminate|]. now apply IH. }
  destruct G as (G1 & G2). split; [lia|]. intros Hk m. unfold eigenvalues_detrend. destruct (e_detrending o); [reflexivity|]. now destruct (G2 Hk).
Qed.
Print Assumptions C32_at_most_once.
(** A detrended object has the length of the original, the values sorted, and no kind. *)
Theorem C32_result {F} {N : Num F} {OL : OrdLaws F N} stats emd polyfit2 : (forall s imfs t, emd s = Ok imfs -> In t imfs -> length t = length s) ->
  forall (v : list F) o, After stats emd polyfit2 1 v o -> length (e_vals o) = length v /\ e_kind o = None /\ AscendingNaNLast (e_vals o).
Proof.
  intros He v o H. inversion H as [|k v0 o0 m o' H0 E]; subst. inversion H0; subst. unfold eigenvalues_detrend in E. cbn [e_detrending e_vals] in E.
  destruct (detrend _ _ _ v m) as [d|] eqn:Ed; [|discriminate]. cbn [bind] in E. assert (o = new_eigenvalues d None (Some m)) by congruence. subst o.
  cbn [new_eigenvalues e_vals e_kind]. split; [rewrite np_sort_length; eapply detrend_length; eauto|]. split; [reflexivity|]. apply np_sort_spec.
Qed.
Print Assumptions C32_result.
Definition noemd : list Q -> result (list (list Q)) := fun s => Ok [map (fun _ => 1%Q) s].
Definition nofit : list Q -> list Q -> result (Q -> Q) := fun _ _ => Raise LinAlgError.
Definition nostats : list Q -> list Q -> Q * Q * Q := fun _ _ => (0, 0, 0)%Q.
Example C32_ex :
  After nostats noemd nofit 1 [1; 2; 9; 4]%Q (mkeigs [0; 1; 3; 8]%Q None (Some (PStr "emd"))) /\
  eigenvalues_detrend nostats noemd nofit (mkeigs [0; 1; 3; 8]%Q None (Some (PStr "emd"))) (PStr "linear") = Raise ValueError.
Proof. split; [|reflexivity]. apply (After_S nostats noemd nofit 0 _ (mkeigs [1; 2; 9; 4]%Q (Some "goe"%string) None) (PStr "emd")); [apply After_0|]. vm_compute. reflexivity. Qed.

(** ** C57 *)
(** [p] is any decision of "variance and norm both exceed the threshold". *)
Theorem C57_rows (thr : R) (c : nat) (rs : list (list R)) (p : list R -> bool) : (1 <= c)%nat -> AllLength c rs ->
  (forall row, In row rs -> p row = true <-> thr < PopVar row /\ thr < Norm2 row) ->
  get_signals sqrt (mkarr [length rs; c] (concat rs)) thr = Ok (filter p rs).
Proof.
  intros Hc HL Hp. unfold get_signals. cbn [shape data]. rewrite rows_concat by exact HL. f_equal. apply mask_filter. intros row Hr.
  apply eq_true_iff_eq. rewrite (Hp row Hr). apply row_mask_R.
Qed.
Print Assumptions C57_rows.
(** In any arithmetic a row is dropped exactly when a comparison with the threshold succeeds, so rows with NaN are kept. *)
Theorem C57_rows_any {F} {N : Num F} (nsqrt : F -> F) thr c (rs : list (list F)) : AllLength c rs ->
  get_signals nsqrt (mkarr [length rs; c] (concat rs)) thr =
  Ok (filter (fun row => negb (nle (nmean (map (fun x => nmul (nsub x (nmean row)) (nsub x (nmean row))) row)) thr) && negb (nle (nsqrt (nsum (map (fun x => nmul x x) row))) thr)) rs).
Proof.
  intros HL. unfold get_signals. cbn [shape data]. rewrite rows_concat by exact HL. f_equal. apply mask_filter. intros row _. unfold row_mask, np_var, np_norm, square.
  cbv zeta. now destruct (nle _ thr), (nle _ thr).
Qed.
Print Assumptions C57_rows_any.
Theorem C57_dimension {F} {N : Num F} (nsqrt : F -> F) thr (a : ndarray F) : length (shape a) <> 2%nat -> get_signals nsqrt a thr = Raise GenericException.
Proof. intros H. unfold get_signals. destruct (shape a) as [|r [|c [|]]]; try reflexivity. now destruct H. Qed.
Print Assumptions C57_dimension.
Example C57_ex : get_signals (fun x => x) (mkarr [3%nat; 2%nat] [1; 3; 5; 5; 0; 4]%Q) (1 # 2)%Q = Ok [[1; 3]; [0; 4]]%Q /\
  get_signals (fun x => x) (mkarr [6%nat] [1; 3; 5; 5; 0; 4]%Q) (1 # 2)%Q = Raise GenericException.
Proof. split; reflexivity. Qed.

(** ** C58 *)
Theorem C58_mean (signals : list (list R)) : Forall (fun r => r <> []) signals ->
  Forall (fun r => Rmean r = 0) (mean_detrend signals) /\ mean_detrend (mean_detrend signals) = mean_detrend signals /\
  map (@List.length R) (mean_detrend signals) = map (@List.length R) signals.
Proof.
  intros H. assert (Z : Forall (fun r => Rmean r = 0) (mean_detrend signals)).
  { apply Forall_map. revert H. apply Forall_impl. intros r Hr. rewrite nmean_R. cbn [nsub Num_R]. rewrite Rmean_INR, Rsum_dev by exact Hr. unfold Rdiv. ring. }
  split; [exact Z|]. split.
  - unfold mean_detrend at 1. rewrite <- (map_id (mean_detrend signals)) at 2. apply map_ext_in. intros r Hr. rewrite Forall_forall in Z. rewrite nmean_R, (Z r Hr).
    rewrite <- (map_id r) at 2. apply map_ext. intros x. cbn [nsub Num_R]. ring.
  - unfold mean_detrend. rewrite map_map. apply map_ext. intros r. apply map_length.
Qed.
Print Assumptions C58_mean.
(** Every row that is a line a t + b with a different from the number of rows keeps the trend a - m: no entry but the first is zero. *)
Theorem C58_linear_refuted (T : nat) (pre post : list (list R)) (a b : R) : (2 <= T)%nat ->
  let signals := (pre ++ map (fun t => a * t + b) (Times T) :: post)%list in
  nth (length pre) (linear_detrend T signals) [] = map (fun t => (a - INR (length signals)) * t) (Times T) /\
  (a <> INR (length signals) -> nth 1 (nth (length pre) (linear_detrend T signals) []) 0 <> 0).
Proof.
  intros HT signals. assert (E : nth (length pre) (linear_detrend T signals) [] = map (fun t => (a - INR (length signals)) * t) (Times T)).
  { unfold linear_detrend. rewrite arange_R. cbv zeta. unfold signals at 2. rewrite map_app. cbn [map]. rewrite app_nth2 by (rewrite map_length; lia). rewrite map_length, Nat.sub_diag. cbn [nth].
    destruct (Times_01 T HT) as (H0 & H1). destruct (ols_recovers (Times T) a b 0 1 H0 H1 ltac:(lra)) as (-> & ->).
    cbn [nadd nmul nsub nofZ Num_R]. rewrite <- INR_IZR_INZ. generalize (INR (length signals)). intros m. clear. induction (Times T) as [|t l IH]; [reflexivity|]. cbn [map combine]. rewrite IH. f_equal. cbn [fst snd]. ring. }
  split; [exact E|]. intros Ha. rewrite E. rewrite nth_map_R by (rewrite Times_length; lia). unfold Times. rewrite (nth_indep _ 0 (INR 0)) by (rewrite map_length, seq_length; lia).
  rewrite map_nth, seq_nth by lia. cbn [Nat.add]. rewrite Rmult_1_r. lra.
Qed.
Print Assumptions C58_linear_refuted.
Example C58_ex : mean_detrend [[1; 3]; [5; 0]]%Q = [[- (1); 1]; [5 # 2; -(5 # 2)]]%Q /\ linear_detrend 3 [[1; 2; 3]; [7; 4; 1]]%Q = [[0; -(1); -(2)]; [0; - (5); - (10)]]%Q.
Proof. split; reflexivity. Qed.

(** ** C59 *)
(** The residual of linear detrending: length, zero sum, orthogonal to time, and detrending it again changes nothing. *)
Theorem C59_linear stats emd polyfit2 (y : list R) m : (2 <= length y)%nat -> m = PStr "linear" \/ m = PMember "Linear" -> exists r,
  detrend stats emd polyfit2 y m = Ok r /\ length r = length y /\ Rsum r = 0 /\ Dot (Times (length y)) r = 0 /\ detrend stats emd polyfit2 r m = Ok r.
Proof.
  intros Hn Hm. set (x := Times (length y)). assert (Hl : length x = length y) by apply Times_length. assert (Hx : x <> []) by (intros E; rewrite E in Hl; cbn in Hl; lia).
  pose proof (Times_var _ Hn) as HV. fold x in HV. exists (Residuals x y (slope x y) (intercept x y (slope x y))). set (r := Residuals _ _ _ _).
  assert (Lr : length r = length y) by now apply Residuals_length. assert (S0 : Rsum r = 0) by (apply ols_sum_zero; assumption). assert (D0 : Dot x r = 0) by (apply ols_orth; assumption).
  split; [now apply detrend_linear_R|]. split; [exact Lr|]. split; [exact S0|]. split; [exact D0|]. rewrite detrend_linear_R by (rewrite ?Lr; assumption). rewrite Lr. fold x. f_equal.
  assert (M0 : Rmean r = 0) by (rewrite Rmean_INR, S0; unfold Rdiv; ring).
  assert (E1 : slope x r = 0). { rewrite slope_R. destruct (Req_EM_T _ _); [reflexivity|]. rewrite M0, (Dot_Sxy x r) by (try lia; assumption). unfold Rdiv. ring. }
  rewrite E1, intercept_R, M0. replace (0 - 0 * Rmean x) with 0 by ring. apply Residuals_00. lia.
Qed.
Print Assumptions C59_linear.
Theorem C59_affine stats emd polyfit2 (a b : R) n m : (2 <= n)%nat -> m = PStr "linear" \/ m = PMember "Linear" ->
  detrend stats emd polyfit2 (map (fun t => a * t + b) (Times n)) m = Ok (repeat 0 n).
Proof.
  intros Hn Hm. rewrite detrend_linear_R by (rewrite ?map_length, ?Times_length; assumption). rewrite map_length, Times_length. destruct (Times_01 n Hn) as (H0 & H1).
  destruct (ols_recovers (Times n) a b 0 1 H0 H1 ltac:(lra)) as (-> & ->). now rewrite Residuals_line, Times_length.
Qed.
Print Assumptions C59_affine.
(** linregress returns five values, [Detrend.linear] unpacks two: it raises ValueError whatever the series and the arithmetic. *)
Theorem C59_class_linear {F} {N : Num F} stats (series : list F) : detrend_linear stats series = Raise ValueError.
Proof. unfold detrend_linear, linregress. destruct (_ || _); [reflexivity|]. now destruct (negb _). Qed.
Print Assumptions C59_class_linear.
(** [Detrend.difference]: n entries for n values; the first n-1 are the differences, the last is whatever memory held. *)
Theorem C59_difference {F} {N : Num F} (series junk : list F) : length junk = length series -> (1 <= length series)%nat ->
  length (detrend_difference series junk) = length series /\
  (forall i, (S i < length series)%nat -> nth i (detrend_difference series junk) n0 = nsub (nth (S i) series n0) (nth i series n0)) /\
  nth (length series - 1) (detrend_difference series junk) n0 = nth (length series - 1) junk n0.
Proof.
  intros Hj H1. unfold detrend_difference. pose proof (difference_loop_spec series (length series - 1) 0 [] junk eq_refl ltac:(lia)) as E. cbn [app] in E. rewrite E. set (n := (length series - 1)%nat) in *.
  split; [rewrite app_length, map_length, seq_length, skipn_length; lia|]. split.
  - intros i Hi. rewrite app_nth1 by (rewrite map_length, seq_length; lia). rewrite (nth_indep _ n0 (nsub (nth (S 0) series n0) (nth 0 series n0))) by (rewrite map_length, seq_length; lia).
    rewrite (map_nth (fun k => nsub (nth (S k) series n0) (nth k series n0)) (seq 0 n) 0%nat i). rewrite seq_nth by lia. reflexivity.
  - rewrite app_nth2 by (rewrite map_length, seq_length; lia). rewrite map_length, seq_length, Nat.sub_diag. rewrite <- (firstn_skipn n junk) at 2.
    rewrite app_nth2 by (rewrite firstn_length; lia). rewrite firstn_length. replace (n - Nat.min n (length junk))%nat with 0%nat by lia. reflexivity.
Qed.
Print Assumptions C59_difference.
(** Empirical mode decomposition writes a series as a sum of components of its length, the trend last.  Both EMD detrendings
    return the sum of the other components. *)
Theorem C59_emd stats emd polyfit2 (y : list R) (parts : list (list R)) (trend : list R) :
  emd y = Ok (parts ++ [trend]) -> Forall (fun c => length c = length y) (parts ++ [trend]) ->
  (forall i, (i < length y)%nat -> nth i y 0 = Rsum (map (fun c => nth i c 0) (parts ++ [trend]))) ->
  exists r, detrend stats emd polyfit2 y (PStr "emd") = Ok r /\ detrend stats emd polyfit2 y (PMember "EMD") = Ok r /\ detrend_emd emd y = Ok r /\
    length r = length y /\ forall i, (i < length y)%nat -> nth i r 0 = Rsum (map (fun c => nth i c 0) parts).
Proof.
  intros E HL HS. assert (Lt : last_opt (parts ++ [trend]) = Some trend).
  { unfold last_opt. rewrite app_length. cbn [length]. rewrite Nat.add_sub, nth_error_app2, Nat.sub_diag by lia. reflexivity. }
  apply Forall_app in HL as (_ & HL). inversion HL as [|? ? Ht _]; subst.
  assert (M : np_minus y trend = Ok (map (fun p => fst p - snd p) (combine y trend))) by (unfold np_minus; now rewrite Ht, Nat.eqb_refl).
  exists (map (fun p => fst p - snd p) (combine y trend)).
  split; [unfold detrend; cbn -[np_minus]; rewrite E; cbn -[np_minus]; rewrite Lt; cbn -[np_minus]; exact M|].
  split; [unfold detrend; cbn -[np_minus]; rewrite E; cbn -[np_minus]; rewrite Lt; cbn -[np_minus]; exact M|].
  split; [unfold detrend_emd; rewrite E; cbn [bind]; now rewrite Lt|].
  split; [rewrite map_length, combine_length; lia|]. intros i Hi.
  rewrite (nth_indep _ 0 ((fun p => fst p - snd p) (0, 0))) by (rewrite map_length, combine_length; lia). rewrite (map_nth (fun p => fst p - snd p)), combine_nth by congruence.
  cbn [fst snd]. rewrite (HS i Hi), map_app, Rsum_app. change (map (fun c => nth i c 0) [trend]) with [nth i trend 0]. rewrite Rsum_cons. change (Rsum []) with 0. ring.
Qed.
Print Assumptions C59_emd.
(** If the quadratic fit reproduces quadratics, quadratic detrending removes them. *)
Theorem C59_quadratic stats emd polyfit2 (a b c : R) n m : m = PStr "quadratic" \/ m = PMember "Quadratic" -> let y := map (fun t => a * t * t + b * t + c) (Times n) in
  (exists p, polyfit2 (Times n) y = Ok p /\ forall t, p t = a * t * t + b * t + c) -> detrend stats emd polyfit2 y m = Ok (repeat 0 n).
Proof.
  intros Hm y (p & E & Hp). assert (Ly : length y = n) by (unfold y; now rewrite map_length, Times_length).
  assert (EA : arange n = Times n) by (unfold arange, Times; apply map_ext; intros i; cbn; now rewrite ?INR_IZR_INZ).
  assert (G : np_minus y (map p (Times n)) = Ok (repeat 0 n)).
  { unfold np_minus. rewrite map_length, Times_length, Ly, Nat.eqb_refl. f_equal. rewrite (map_ext p (fun t => a * t * t + b * t + c)) by exact Hp. fold y.
    clear E. clearbody y. clear - Ly. subst n. induction y as [|v y IH]; [reflexivity|]. cbn [combine map length repeat]. rewrite IH. f_equal. cbn. ring. }
  destruct Hm as [-> | ->]; unfold detrend; cbn -[np_minus arange]; rewrite Ly, EA, E; cbn -[np_minus]; exact G.
Qed.
Print Assumptions C59_quadratic.
Example C59_emd_case : let emd := fun _ => Ok [[1; -1; 2]; [0; 1; 0]; [5; 6; 7]]%Q in
  detrend nostats emd nofit [6; 6; 9]%Q (PStr "emd") = Ok [1; 0; 2]%Q /\ detrend_emd emd [6; 6; 9]%Q = Ok [1; 0; 2]%Q.
Proof. split; reflexivity. Qed.
Example C59_quadratic_case : let fit := fun _ _ => Ok (fun t => 2 * t * t + 1)%Q in
  detrend nostats noemd fit [1; 3; 9]%Q (PStr "quadratic") = Ok [0; 0; 0]%Q.
Proof. reflexivity. Qed.
Example C59_ex : detrend nostats noemd nofit [1; 4; 4; 7]%Q (PStr "linear") = Ok [-(3 # 10); 9 # 10; -(9 # 10); 3 # 10]%Q /\
  detrend_linear nostats [1; 4; 4; 7]%Q = Raise ValueError /\ detrend_difference [1; 4; 4; 7]%Q [9; 9; 9; 99]%Q = [3; 0; 3; 99]%Q.
Proof. repeat split. Qed.

(** ** C62 *)
Lemma nth_map_seq (f : nat -> R) n i : (i < n)%nat -> nth i (map f (seq 0 n)) 0 = f i.
Proof. intros H. rewrite (nth_indep _ 0 (f 0%nat)) by (rewrite map_length, seq_length; lia). now rewrite map_nth, seq_nth. Qed.
Lemma repeat_map_seq (a : R) n : forall k, repeat a n = map (fun _ : nat => a) (seq k n).
Proof. induction n as [|n IH]; intros k; [reflexivity|]. cbn [seq map repeat]. now rewrite <- IH. Qed.
Theorem C62_length {F} {N : Num F} (x y : list F) : (2 <= length x)%nat -> exists d, derivative x y = Done d /\ length d = length x.
Proof.
  intros H. unfold derivative. destruct (Nat.ltb_spec (length x) 2); [lia|]. eexists. split; [reflexivity|]. cbn [List.length]. rewrite app_length, map_length, seq_length. cbn [List.length]. lia.
Qed.
Print Assumptions C62_length.
Theorem C62_affine (x : list R) (a b : R) : (2 <= length x)%nat -> NoDup x -> derivative x (map (fun t => a * t + b) x) = Done (repeat a (length x)).
Proof.
  intros H HN. unfold derivative. destruct (Nat.ltb_spec (length x) 2); [lia|]. f_equal.
  assert (Q : forall i j, (i < length x)%nat -> (j < length x)%nat -> i <> j ->
    ndiv (nsub (nth i (map (fun t => a * t + b) x) n0) (nth j (map (fun t => a * t + b) x) n0)) (nsub (nth i x n0) (nth j x n0)) = a).
  { intros i j Hi Hj Hij. cbn [n0 ndiv nsub Num_R]. rewrite !nth_map_R by assumption. assert (nth i x 0 <> nth j x 0) by (intros E; apply Hij; eapply NoDup_nth; eauto). field. lra. }
  rewrite !Q by lia. replace (map _ (seq 0 (length x - 2))) with (repeat a (length x - 2)).
  - destruct (length x) as [|[|n]]; [lia|lia|]. replace (S (S n) - 2)%nat with n by lia. cbn [repeat]. f_equal. change [a] with (repeat a 1). rewrite <- repeat_app. now replace (n + 1)%nat with (S n) by lia.
  - transitivity (map (fun _ : nat => a) (seq 0 (length x - 2))). { apply repeat_map_seq. }
    apply map_ext_in. intros i Hi. apply in_seq in Hi. symmetry. apply Q; lia.
Qed.
Print Assumptions C62_affine.
Theorem C62_quadratic (x : list R) (s a b c : R) : s <> 0 -> Uniform s x -> (2 <= length x)%nat -> exists d,
  derivative x (map (fun t => a * (t * t) + b * t + c) x) = Done d /\ forall i, (1 <= i)%nat -> (S i < length x)%nat -> nth i d 0 = 2 * a * nth i x 0 + b.
Proof.
  intros Hs HU H. unfold derivative. destruct (Nat.ltb_spec (length x) 2); [lia|]. eexists. split; [reflexivity|]. intros [|i] H1 Hi; [lia|]. cbn [nth].
  rewrite app_nth1 by (rewrite map_length, seq_length; lia). rewrite nth_map_seq by lia. cbn [n0 ndiv nsub Num_R]. rewrite !nth_map_R by lia.
  pose proof (HU i _ _ (nth_error_nth0 x i ltac:(lia)) (nth_error_nth0 x (S i) ltac:(lia))) as E1. pose proof (HU (S i) _ _ (nth_error_nth0 x (S i) ltac:(lia)) (nth_error_nth0 x (S (S i)) ltac:(lia))) as E2.
  replace (i + 2)%nat with (S (S i)) by lia. set (u := nth i x 0) in *. replace (nth (S (S i)) x 0) with (u + 2 * s) by lra. replace (nth (S i) x 0) with (u + s) by lra. field. lra.
Qed.
Print Assumptions C62_quadratic.
Example C62_ex : derivative [0; 2; 4; 6]%Q [0; 4; 16; 36]%Q = Done [2; 4; 8; 10]%Q /\ derivative [0; 1; 5]%Q [7; 10; 22]%Q = Done [3; 3; 3]%Q.
Proof. split; reflexivity. Qed.

(** ** C63 *)
Theorem C63_increasing (a b c : R) : 0 < a -> 0 < b -> 0 < c ->
  (forall x y, x < y -> gompertz a b c x < gompertz a b c y) /\ (forall x, 0 < gompertz a b c x < a) /\
  (forall eps, 0 < eps -> exists X, forall x, X < x -> Rabs (gompertz a b c x - a) < eps) /\
  (forall eps, 0 < eps -> exists X, forall x, x < X -> Rabs (gompertz a b c x) < eps).
Proof.
  intros Ha Hb Hc. split; [intros; now apply gompertz_mono|]. split; [intros; now apply gompertz_range|]. assert (Hab : 0 < a * b) by now apply Rmult_lt_0_compat. split.
  - intros eps He. exists (- ln (eps / (a * b)) / c). intros x Hx. pose proof (gompertz_range a b c x Ha Hb) as R0. rewrite Rabs_left by lra.
    assert (E : - c * x < ln (eps / (a * b))).
    { apply (Rmult_lt_compat_l c) in Hx; [|exact Hc]. replace (c * (- ln (eps / (a * b)) / c)) with (- ln (eps / (a * b))) in Hx by (field; lra). lra. }
    apply exp_increasing in E. rewrite exp_ln in E by (apply Rdiv_lt_0_compat; assumption). unfold gompertz. set (u := exp (- c * x)) in *.
    assert (HE : 1 + - b * u <= exp (- b * u)) by apply exp_ineq1_le. apply (Rmult_le_compat_l a) in HE; [|lra].
    assert (HU : a * b * u < eps). { apply (Rmult_lt_compat_l (a * b)) in E; [|exact Hab]. replace (a * b * (eps / (a * b))) with eps in E by (field; lra). exact E. } lra.
  - intros eps He. exists ((1 + ln (eps / a) / b) / c). intros x Hx. pose proof (gompertz_range a b c x Ha Hb) as R0. rewrite Rabs_pos_eq by lra.
    apply (Rmult_lt_compat_l c) in Hx; [|exact Hc]. replace (c * ((1 + ln (eps / a) / b) / c)) with (1 + ln (eps / a) / b) in Hx by (field; lra).
    assert (HE : 1 + - c * x <= exp (- c * x)) by apply exp_ineq1_le. assert (E : - (ln (eps / a) / b) < exp (- c * x)) by lra.
    apply (Rmult_lt_compat_l b) in E; [|exact Hb]. replace (b * - (ln (eps / a) / b)) with (- ln (eps / a)) in E by (field; lra).
    assert (E2 : - b * exp (- c * x) < ln (eps / a)) by lra. apply exp_increasing in E2. rewrite exp_ln in E2 by now apply Rdiv_lt_0_compat.
    unfold gompertz. apply (Rmult_lt_compat_l a) in E2; [|exact Ha]. replace (a * (eps / a)) with eps in E2 by (field; lra). exact E2.
Qed.
Print Assumptions C63_increasing.
(** For a > 0 the inverse is NaN at every non-negative argument, in particular at every value of the curve. *)
Theorem C63_inverse_refuted (a b c : R) : 0 < a ->
  (forall x, 0 <= x -> inverse_gompertz a b c x = NaN) /\ (0 < b -> forall x, inverse_gompertz a b c (gompertz a b c x) <> Fin x).
Proof.
  intros Ha. split; [intros; now apply inverse_gompertz_nan|]. intros Hb x. rewrite inverse_gompertz_nan; [discriminate|exact Ha|]. pose proof (gompertz_range a b c x Ha Hb). lra.
Qed.
Print Assumptions C63_inverse_refuted.
(** What [inverse_gompertz] does invert, for every a <> 0: the doubly iterated curve -a exp (b exp (-exp (c y))); at the foot
    of that curve, x = -a, it is infinite. *)
Theorem C63_what_it_inverts (a b c : R) : a <> 0 -> 0 < b -> c <> 0 ->
  (forall y, inverse_gompertz a b c (- a * exp (b * exp (- exp (c * y)))) = Fin y) /\
  inverse_gompertz a b c (- a) = (if Rlt_dec 0 c then PosInf else NegInf).
Proof.
  intros Ha Hb Hc. split; [intros y|]; unfold inverse_gompertz.
  - replace (- (- a * exp (b * exp (- exp (c * y)))) / a) with (exp (b * exp (- exp (c * y)))) by (field; exact Ha).
    set (e := exp (- exp (c * y))). assert (He : 0 < e) by apply exp_pos. assert (Hbe : 0 < b * e) by now apply Rmult_lt_0_compat.
    cbn [np_log]. destruct (Rlt_dec 0 (exp (b * e))) as [_|n]; [|elim n; apply exp_pos]. rewrite ln_exp. cbn [np_log].
    destruct (Rlt_dec 0 (b * e)); [|contradiction]. destruct (Rlt_dec 0 b); [|contradiction]. cbn [ext_sub np_log].
    rewrite ln_mult by assumption. replace (ln e) with (- exp (c * y)) by (unfold e; now rewrite ln_exp).
    replace (ln b - (ln b + - exp (c * y))) with (exp (c * y)) by ring.
    destruct (Rlt_dec 0 (exp (c * y))) as [_|n]; [|elim n; apply exp_pos]. rewrite ln_exp. unfold ext_div.
    destruct (Req_EM_T c 0); [contradiction|]. f_equal. field. exact Hc.
  - replace (- - a / a) with 1 by (field; exact Ha). cbn [np_log]. destruct (Rlt_dec 0 1) as [_|n]; [|lra]. rewrite ln_1. cbn [np_log].
    destruct (Rlt_dec 0 0); [lra|]. destruct (Req_EM_T 0 0); [|lra]. destruct (Rlt_dec 0 b); [|contradiction]. cbn [ext_sub np_log].
    unfold ext_div. destruct (Req_EM_T c 0); [contradiction|reflexivity].
Qed.
Print Assumptions C63_what_it_inverts.
Example C63_inverts_ex : inverse_gompertz (-3) 2 1 (- -3 * exp (2 * exp (- exp (1 * 5)))) = Fin 5 /\ inverse_gompertz (-3) 2 1 (- -3) = PosInf.
Proof.
  destruct (C63_what_it_inverts (-3) 2 1) as [A B]; try lra. split; [apply A|]. rewrite B. destruct (Rlt_dec 0 1); [reflexivity|lra].
Qed.
Example C63_ex : gompertz 2 1 1 0 < gompertz 2 1 1 1 /\ inverse_gompertz 2 1 1 (gompertz 2 1 1 0) = NaN.
Proof. split; [apply gompertz_mono; lra|]. apply inverse_gompertz_nan; [lra|]. pose proof (gompertz_range 2 1 1 0 ltac:(lra) ltac:(lra)). lra. Qed.

(** ** C137 *)
(** The exponential curve rises from b - a at zero towards b; it is the plain exponential in the d-th root of x. *)
Theorem C137_curve (a b c d : R) : 0 < a -> 0 < c -> 0 < d ->
  exponential a b c d 0 = b - a /\
  (forall t, 0 < t -> exponential a b c d (Rpower t d) = b - a * exp (- c * t)) /\
  (forall x y, 0 <= x -> x < y -> exponential a b c d x < exponential a b c d y) /\
  (forall x, 0 < x -> b - a < exponential a b c d x < b) /\
  (forall eps, 0 < eps -> exists X, forall x, 0 < x -> X < x -> Rabs (exponential a b c d x - b) < eps).
Proof.
  intros Ha Hc Hd. assert (Hr : 0 < 1 / d) by (apply Rdiv_lt_0_compat; lra).
  assert (Hp : forall x, 0 < x -> np_power x (1 / d) = Rpower x (1 / d)) by (intros x Hx; unfold np_power; destruct (Req_EM_T x 0); [lra|reflexivity]).
  assert (Hpos : forall x, 0 < x -> 0 < np_power x (1 / d)) by (intros x Hx; rewrite Hp by exact Hx; apply exp_pos).
  assert (H0 : np_power 0 (1 / d) = 0) by (unfold np_power; destruct (Req_EM_T 0 0); [reflexivity|lra]).
  assert (Hinc : forall x y, 0 <= x -> x < y -> np_power x (1 / d) < np_power y (1 / d)).
  { intros x y Hx Hy. destruct Hx as [Hx| <-]; [|rewrite H0; apply Hpos; lra]. rewrite !Hp by lra. unfold Rpower. apply exp_increasing.
    apply Rmult_lt_compat_l; [exact Hr|]. apply ln_increasing; assumption. }
  assert (Hmono : forall x y, 0 <= x -> x < y -> exponential a b c d x < exponential a b c d y).
  { intros x y Hx Hy. unfold exponential. specialize (Hinc x y Hx Hy). assert (E : exp (- c * np_power y (1 / d)) < exp (- c * np_power x (1 / d))).
    { apply exp_increasing. apply (Rmult_lt_compat_l c) in Hinc; [lra|exact Hc]. } apply (Rmult_lt_compat_l a) in E; [lra|exact Ha]. }
  assert (Hz : exponential a b c d 0 = b - a) by (unfold exponential; rewrite H0, Rmult_0_r, exp_0; ring).
  split; [exact Hz|]. split; [|split; [exact Hmono|split]].
  - intros t Ht. unfold exponential. rewrite Hp by apply exp_pos. rewrite Rpower_mult. replace (d * (1 / d)) with 1 by (field; lra).
    rewrite Rpower_1 by exact Ht. reflexivity.
  - intros x Hx. split; [rewrite <- Hz; apply Hmono; lra|]. unfold exponential. pose proof (exp_pos (- c * np_power x (1 / d))) as E.
    apply (Rmult_lt_0_compat a) in E; [lra|exact Ha].
  - intros eps He. set (t := Rabs (ln (eps / a)) / c + 1).
    assert (Ht : 0 < t) by (unfold t; pose proof (Rabs_pos (ln (eps / a))) as K; assert (0 <= Rabs (ln (eps / a)) / c) by (unfold Rdiv; apply Rmult_le_pos; [exact K|left; now apply Rinv_0_lt_compat]); lra).
    exists (Rpower t d). intros x Hx0 Hx.
    assert (Hroot : t < Rpower x (1 / d)).
    { specialize (Hinc (Rpower t d) x (Rlt_le _ _ (exp_pos _)) Hx). rewrite !Hp in Hinc by (exact Hx0 || apply exp_pos). rewrite Rpower_mult in Hinc.
      replace (d * (1 / d)) with 1 in Hinc by (field; lra). now rewrite Rpower_1 in Hinc by exact Ht. }
    unfold exponential. rewrite Hp by exact Hx0. set (u := Rpower x (1 / d)) in *. pose proof (exp_pos (- c * u)) as E. pose proof (Rmult_lt_0_compat a _ Ha E) as E1.
    rewrite Rabs_left by lra.
    assert (K : - c * u < ln (eps / a)).
    { apply (Rmult_lt_compat_l c) in Hroot; [|exact Hc]. unfold t in Hroot. replace (c * (Rabs (ln (eps / a)) / c + 1)) with (Rabs (ln (eps / a)) + c) in Hroot by (field; lra).
      pose proof (Rle_abs (- ln (eps / a))) as K. rewrite Rabs_Ropp in K. lra. }
    apply exp_increasing in K. rewrite exp_ln in K by now apply Rdiv_lt_0_compat. apply (Rmult_lt_compat_l a) in K; [|exact Ha].
    replace (a * (eps / a)) with eps in K by (field; lra). lra.
Qed.
Print Assumptions C137_curve.
(** The docstring's "b is intercept": b is never the value at zero of a curve that is not constant. *)
Theorem C137_intercept_refuted (a b c d : R) : a <> 0 -> exponential a b c d 0 <> b.
Proof.
  intros Ha. unfold exponential, np_power. destruct (Req_EM_T 0 0) as [_|n]; [|lra]. rewrite Rmult_0_r, exp_0. lra.
Qed.
Print Assumptions C137_intercept_refuted.
Example C137_ex : exponential 2 5 1 2 0 = 3 /\ exponential 2 5 1 2 (Rpower 3 2) = 5 - 2 * exp (- 1 * 3) /\ exponential 2 5 1 2 0 <> 5.
Proof.
  destruct (C137_curve 2 5 1 2) as (A & B & _); try lra. split; [rewrite A; lra|]. split; [apply B; lra|]. apply C137_intercept_refuted. lra.
Qed.
