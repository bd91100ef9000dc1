(** Properties C54-C56, C69, C70: curve comparison. *)
From Coq Require Import String List ZArith Bool Arith Lia Reals Lra QArith.
From Verif Require Import Base S_Order S_EigVals S_Trim M_Step M_EigVals M_Compare S_Compare P_Order P_Step P_EigVals P_TrimStat P_Ols P_Compare.
Import ListNotations.
Local Open Scope R_scope.
Local Notation length := List.length.

(** What C54 asks of a table [d] of pairwise comparisons of [curves] by [m]: n x n, entries m(ci, cj), hence the rest. *)
Definition PairwiseTable (m : list R -> list R -> R) (curves d : list (list R)) : Prop :=
  length d = length curves /\ AllLength (length curves) d /\
  (forall i j ci cj, nth_error curves i = Some ci -> nth_error curves j = Some cj -> Entry d i j (m ci cj)) /\
  (forall i j x, Entry d i j x -> Entry d j i x) /\ (forall i j x, Entry d i j x -> 0 <= x) /\ (forall i x, Entry d i i x -> x = 0) /\
  (forall i j ci cj, nth_error curves i = Some ci -> nth_error curves j = Some cj -> Entry d i j 0 -> ci = cj).

Lemma pairwise (g : R -> R) (m : list R -> list R -> R) t curves :
  (forall a b, nmean (map g (map (fun p : R * R => nsub (fst p) (snd p)) (combine a b))) = m a b) ->
  (forall a b, m a b = m b a) -> (forall a b, 0 <= m a b) -> (forall a, m a a = 0) ->
  (forall a b, a <> [] -> length a = length b -> m a b = 0 -> a = b) ->
  (1 <= t)%nat -> AllLength t curves -> PairwiseTable m curves (fast_table g curves).
Proof.
  intros Hg Hs Hn H0 Hz Ht HL. set (d := fast_table g curves).
  assert (HE : forall i j ci cj, nth_error curves i = Some ci -> nth_error curves j = Some cj -> Entry d i j (m ci cj)).
  { intros i j ci cj Hi Hj. rewrite <- Hg. now apply table_entry. }
  assert (HI : forall i j x, Entry d i j x -> exists ci cj, nth_error curves i = Some ci /\ nth_error curves j = Some cj /\ x = m ci cj).
  { intros i j x Hx. pose proof Hx as (row & H1 & H2). unfold d, fast_table in H1. rewrite nth_error_map in H1.
    destruct (nth_error curves i) as [ci|] eqn:Ei; [|discriminate]. injection H1 as <-. rewrite nth_error_map in H2.
    destruct (nth_error curves j) as [cj|] eqn:Ej; [|discriminate]. exists ci, cj. repeat split; auto. eapply Entry_fun; [exact Hx|]. now apply HE. }
  split; [apply map_length|]. split. { apply Forall_forall. intros r Hr. apply in_map_iff in Hr as (c & <- & _). apply map_length. }
  split; [exact HE|]. split; [|split; [|split]].
  - intros i j x Hx. destruct (HI i j x Hx) as (ci & cj & H1 & H2 & ->). rewrite Hs. now apply HE.
  - intros i j x Hx. destruct (HI i j x Hx) as (ci & cj & H1 & H2 & ->). apply Hn.
  - intros i x Hx. destruct (HI i i x Hx) as (ci & cj & H1 & H2 & ->). assert (cj = ci) by congruence. subst. apply H0.
  - intros i j ci cj Hi Hj Hx. pose proof (Entry_fun _ _ _ _ _ Hx (HE i j ci cj Hi Hj)) as E. unfold AllLength in HL. rewrite Forall_forall in HL.
    pose proof (HL ci (nth_error_In _ _ Hi)). pose proof (HL cj (nth_error_In _ _ Hj)). apply Hz; [destruct ci; [cbn in *; lia|discriminate]|lia|now symmetry].
Qed.

(** C54. Mean squared differences. *)
Theorem C54_mean_sq : forall t curves labels bl junk, (1 <= t)%nat -> (2 <= length curves)%nat -> length labels = length curves -> AllLength t curves ->
  exists d, mean_sq_difference (mkcmp curves labels None bl) junk = Ok (mkframe labels (map Some labels) d) /\ PairwiseTable MeanSq curves d.
Proof.
  intros t curves labels bl junk Ht Hn Hl HL. eexists. split.
  - unfold mean_sq_difference, difference. rewrite (validate_true _ t); [reflexivity| |exact HL|discriminate]. split; cbn; [left; lia|now symmetry].
  - apply (pairwise _ _ t); auto using entry_sq, MeanSq_sym, MeanSq_self. + intros. apply Rmean_nonneg, sq_terms. + apply MeanSq_zero.
Qed.
Print Assumptions C54_mean_sq.
(** C54. Mean absolute differences; these also satisfy the triangle inequality. *)
Theorem C54_mean_abs : forall t curves labels bl junk, (1 <= t)%nat -> (2 <= length curves)%nat -> length labels = length curves -> AllLength t curves ->
  exists d, mean_abs_difference (mkcmp curves labels None bl) junk = Ok (mkframe labels (map Some labels) d) /\ PairwiseTable MeanAbs curves d /\
    forall i j k x y z, Entry d i j x -> Entry d j k y -> Entry d i k z -> z <= x + y.
Proof.
  intros t curves labels bl junk Ht Hn Hl HL. assert (P : PairwiseTable MeanAbs curves (fast_table nabs curves)).
  { apply (pairwise _ _ t); auto using entry_abs, MeanAbs_sym, MeanAbs_self. + intros. apply Rmean_nonneg, abs_terms. + apply MeanAbs_zero. }
  eexists. split; [|split; [exact P|]].
  - unfold mean_abs_difference, difference. rewrite (validate_true _ t); [reflexivity| |exact HL|discriminate]. split; cbn; [left; lia|now symmetry].
  - intros i j k x y z Hx Hy Hz. destruct P as (P1 & _ & HE & _).
    assert (G : forall i j x, Entry (fast_table nabs curves) i j x -> exists ci cj, nth_error curves i = Some ci /\ nth_error curves j = Some cj).
    { intros a b w (row & H1 & H2). unfold fast_table in H1. rewrite nth_error_map in H1. destruct (nth_error curves a) as [ca|]; [|discriminate].
      injection H1 as <-. rewrite nth_error_map in H2. destruct (nth_error curves b) as [cb|]; [|discriminate]. eauto. }
    destruct (G _ _ _ Hx) as (ci & cj & Hi & Hj). destruct (G _ _ _ Hz) as (_ & ck & _ & Hk).
    rewrite (Entry_fun _ _ _ _ _ Hx (HE _ _ _ _ Hi Hj)), (Entry_fun _ _ _ _ _ Hy (HE _ _ _ _ Hj Hk)), (Entry_fun _ _ _ _ _ Hz (HE _ _ _ _ Hi Hk)).
    unfold AllLength in HL. rewrite Forall_forall in HL. pose proof (HL _ (nth_error_In _ _ Hi)). pose proof (HL _ (nth_error_In _ _ Hj)). pose proof (HL _ (nth_error_In _ _ Hk)).
    apply MeanAbs_triangle; congruence.
Qed.
Print Assumptions C54_mean_abs.
(** C54. Rearranging the curves rearranges rows and columns alike. *)
Theorem C54_permutes : forall (g : R -> R) curves curves' labels labels' bl junk d d',
  difference g (mkcmp curves labels None bl) junk = Ok d -> difference g (mkcmp curves' labels' None bl) junk = Ok d' ->
  forall i j i' j' x, nth_error curves' i' = nth_error curves i -> nth_error curves' j' = nth_error curves j ->
    Entry (f_data (F := R) d) i j x -> Entry (f_data d') i' j' x.
Proof.
  intros g curves curves' labels labels' bl junk d d' Hd Hd' i j i' j' x Hi Hj Hx. unfold difference in *.
  destruct (validate _ true) as [[]|] in Hd; [|discriminate]. destruct (validate _ true) as [[]|] in Hd'; [|discriminate]. cbn [bind c_base c_labels c_curves] in Hd, Hd'.
  assert (E1 : d = mkframe labels (map Some labels) (fast_table g curves)) by congruence. assert (E2 : d' = mkframe labels' (map Some labels') (fast_table g curves')) by congruence. subst d d'. cbn [f_data] in *. pose proof Hx as (row & H1 & H2). unfold fast_table in H1. rewrite nth_error_map in H1.
  destruct (nth_error curves i) as [ci|] eqn:Ei; [|discriminate]. injection H1 as <-. rewrite nth_error_map in H2.
  destruct (nth_error curves j) as [cj|] eqn:Ej; [|discriminate]. rewrite (Entry_fun _ _ _ _ _ Hx (table_entry g curves i j ci cj Ei Ej)). now apply table_entry.
Qed.
Print Assumptions C54_permutes.
Example C54_case : let cs := [[1; 2; 4]; [1; 0; 1]; [0; 0; 0]]%Q in
  mean_sq_difference (mkcmp cs ["a"; "b"; "c"]%string None None) [] = Ok (mkframe ["a"; "b"; "c"]%string [Some "a"; Some "b"; Some "c"]%string
    [[0; 13 # 3; 7]; [13 # 3; 0; 2 # 3]; [7; 2 # 3; 0]]%Q) /\
  mean_abs_difference (mkcmp cs ["a"; "b"; "c"]%string None None) [] = Ok (mkframe ["a"; "b"; "c"]%string [Some "a"; Some "b"; Some "c"]%string
    [[0; 5 # 3; 7 # 3]; [5 # 3; 0; 2 # 3]; [7 # 3; 2 # 3; 0]]%Q).
Proof. split; vm_compute; reflexivity. Qed.
(** Curves and labels in another order: rows and columns follow. *)
Example C54_permutes_case : mean_sq_difference (mkcmp [[0; 0; 0]; [1; 2; 4]; [1; 0; 1]]%Q ["c"; "a"; "b"]%string None None) [] =
  Ok (mkframe ["c"; "a"; "b"]%string [Some "c"; Some "a"; Some "b"]%string [[0; 7; 2 # 3]; [7; 0; 13 # 3]; [2 # 3; 13 # 3; 0]]%Q).
Proof. vm_compute. reflexivity. Qed.

(** C55, what holds: entry 0 is the comparison of the base with the first curve; all further entries are whatever np.empty left. *)
Theorem C55_first_entry : forall t base c0 curves labels bl junk, (1 <= t)%nat -> length base = t -> AllLength t (c0 :: curves) ->
  length labels = length (c0 :: curves) -> length junk = length (c0 :: curves) ->
  let c := mkcmp (c0 :: curves) labels (Some base) bl in
  mean_sq_difference c junk = Ok (mkframe labels [bl] ([MeanSq base c0] :: map (fun x => [x]) (skipn 1 junk))) /\
  mean_abs_difference c junk = Ok (mkframe labels [bl] ([MeanAbs base c0] :: map (fun x => [x]) (skipn 1 junk))).
Proof.
  intros t base c0 curves labels bl junk Ht Hb HL Hl Hj c. assert (V : validate c true = Ok tt).
  { apply (validate_true c t); [|exact HL|intros _ b [= <-]; exact Hb]. split; [|now symmetry]. cbn. destruct curves; [right; split; [reflexivity|discriminate]|left; cbn; lia]. }
  assert (Hc : length base = length c0) by (inversion HL; congruence). destruct junk as [|j0 junk]; [discriminate|].
  unfold mean_sq_difference, mean_abs_difference, difference. rewrite V. cbn [bind c c_base c_curves base_loop c_labels c_base_label]. unfold np_minus. rewrite Hc, Nat.eqb_refl. cbn [bind set_nth map skipn].
  rewrite entry_sq, entry_abs. split; reflexivity.
Qed.
Print Assumptions C55_first_entry.
(** C55 is false of the code: with two curves the second entry depends only on uninitialised memory: for any wanted value
    there is memory making it that value. *)
Theorem C55_base_refuted : forall wanted : Q, exists junk : list Q,
  mean_sq_difference (mkcmp [[1; 2]; [3; 4]]%Q ["a"; "b"]%string (Some [1; 2]%Q) (Some "base"%string)) junk
    = Ok (mkframe ["a"; "b"]%string [Some "base"%string] [[0%Q]; [wanted]]) /\
  mean_abs_difference (mkcmp [[1; 2]; [3; 4]]%Q ["a"; "b"]%string (Some [1; 2]%Q) (Some "base"%string)) junk
    = Ok (mkframe ["a"; "b"]%string [Some "base"%string] [[0%Q]; [wanted]]).
Proof. intros w. exists [7%Q; w]. split; reflexivity. Qed.
Print Assumptions C55_base_refuted.
Example C55_case : mean_abs_difference (mkcmp [[1; 2; 5]]%Q ["a"]%string (Some [1; 4; 4]%Q) (Some "exp"%string)) [9%Q] = Ok (mkframe ["a"]%string [Some "exp"%string] [[1%Q]]).
Proof. reflexivity. Qed.

(** C56. Construction from one-dimensional curves. *)
Theorem C56_construct : forall {F} {N : Num F} (curves : list (list F)) labels (base : option (list F)) bl,
  let arr l := mkarr [length l] l in
  let ok := (curves <> [] /\ (length curves = 1%nat -> base <> None) /\ length labels = length curves) in
  let r := compare_init (map arr curves) labels (option_map arr base) bl in
  (ok -> r = Ok (mkcmp curves labels base bl)) /\ (~ ok -> r = Raise ValueError).
Proof.
  intros F N curves labels base bl arr ok r. assert (HM : forall l, make_1d_array (arr l) = Ok l).
  { intros l. unfold make_1d_array, py_len. cbn. now rewrite Nat.eqb_refl. }
  assert (E : r = let! _ := validate (mkcmp curves labels base bl) false in Ok (mkcmp curves labels base bl)).
  { unfold r, compare_init. rewrite (map_result_ok _ (@data F)) by (apply Forall_forall; intros x Hx; apply in_map_iff in Hx as (l & <- & _); apply HM).
    rewrite map_map. cbn [bind arr data]. rewrite map_id. destruct base as [b|]; cbn [option_map bind]; [rewrite HM|]; reflexivity. }
  destruct (validate_false (mkcmp curves labels base bl)) as (V1 & V2). unfold valid_args in V1, V2. cbn [c_curves c_labels c_base] in V1, V2. rewrite E. split; intros H.
  - destruct H as (H1 & H2 & H3). rewrite V1; [reflexivity|]. split; [|now symmetry]. destruct curves as [|a [|b l]]; [congruence| |left; cbn; lia]. right. cbn. auto.
  - rewrite V2; [reflexivity|]. intros (H1 & H2). apply H. split; [|split; [|now symmetry]].
    + destruct curves; [cbn in H1; lia|discriminate].
    + intros H3. destruct H1 as [H1|(_ & H1)]; [lia|exact H1].
Qed.
Print Assumptions C56_construct.
(** C56. The comparison methods raise ValueError, and nothing else, for curves of different lengths, and for a labelled base of
    another length. *)
Theorem C56_lengths : forall {F} {N : Num F} (g : F -> F) (c : compare (F := F)) junk,
  (exists a b, In a (c_curves c) /\ In b (c_curves c) /\ length a <> length b) \/
  (exists base a, c_base c = Some base /\ c_base_label c <> None /\ In a (c_curves c) /\ length a <> length base) ->
  difference g c junk = Raise ValueError.
Proof.
  intros F N g c junk H. unfold difference. destruct (validate_only c true) as [V|V]; rewrite V; [|reflexivity]. exfalso.
  destruct (validate_true_inv c V) as (_ & t & HL & HB). unfold AllLength in HL. rewrite Forall_forall in HL. destruct H as [(a & b & Ha & Hb & Hab)|(b & a & Hb & Hbl & Ha & Hab)].
  - apply Hab. now rewrite (HL a Ha), (HL b Hb).
  - apply Hab. now rewrite (HL a Ha), (HB Hbl b Hb).
Qed.
Print Assumptions C56_lengths.
(** C56. A base without a label is not checked: one point is compared with every point of the first curve, a one-point first curve with
    every point of the base, and any other pair of different lengths is a ValueError. *)
Theorem C56_unlabelled : forall (g : R -> R) base c0 curves labels j0 junk,
  AllLength (length c0) curves -> length labels = S (length curves) -> length base <> length c0 ->
  let run := difference g (mkcmp (c0 :: curves) labels (Some base) None) (j0 :: junk) in
  (forall x, base = [x] -> run = Ok (mkframe labels [None] ([Rmean (map (fun y => g (x - y)) c0)] :: map (fun v => [v]) junk))) /\
  (forall y, c0 = [y] -> run = Ok (mkframe labels [None] ([Rmean (map (fun x => g (x - y)) base)] :: map (fun v => [v]) junk))) /\
  (length base <> 1%nat -> length c0 <> 1%nat -> run = Raise ValueError).
Proof.
  intros g base c0 curves labels j0 junk HL Hl Hne run. assert (V : validate (mkcmp (c0 :: curves) labels (Some base) None) true = Ok tt).
  { apply (validate_true _ (length c0)); [|constructor; [reflexivity|exact HL]|intros Q; now destruct Q]. split; [|now symmetry]. cbn. destruct curves; [right; split; [reflexivity|discriminate]|left; cbn; lia]. }
  unfold run, difference. rewrite V. cbn [bind c_base c_curves base_loop c_labels c_base_label]. unfold np_minus. apply Nat.eqb_neq in Hne. rewrite Hne. split; [|split].
  - intros x ->. cbn [bind set_nth map]. rewrite map_map, nmean_R. reflexivity.
  - intros y ->. destruct base as [|b0 [|b1 base]]; [|now cbn in Hne|]; cbn [bind set_nth map]; rewrite ?map_map, nmean_R; reflexivity.
  - intros H1 H2. destruct base as [|b0 [|b1 base]]; [|now cbn in H1|]; destruct c0 as [|y0 [|y1 c0]]; try (now cbn in H2); try reflexivity; now cbn in Hne.
Qed.
Print Assumptions C56_unlabelled.
(** One point of difference is enough; an unlabelled base is not checked and NumPy broadcasts a one-point base. *)
Example C56_case :
  compare_init [mkarr [2%nat] [1; 2]%Q] ["a"]%string None None = Raise ValueError /\
  compare_init [mkarr [2%nat] [1; 2]%Q; mkarr [3%nat] [1; 2; 3]%Q] ["a"; "b"]%string None None = Ok (mkcmp [[1; 2]; [1; 2; 3]]%Q ["a"; "b"]%string None None) /\
  mean_sq_difference (mkcmp [[1; 2]; [1; 2; 3]]%Q ["a"; "b"]%string None None) [] = Raise ValueError /\
  mean_sq_difference (mkcmp [[1; 3]]%Q ["a"]%string (Some [1]%Q) None) [0%Q] = Ok (mkframe ["a"]%string [None] [[2%Q]]) /\
  mean_sq_difference (mkcmp [[1; 3]]%Q ["a"]%string (Some [1]%Q) (Some "b"%string)) [0%Q] = Raise ValueError.
Proof. repeat split; reflexivity. Qed.

(** C69. Correlations of non-constant curves: without base, the symmetric table of Pearson coefficients, 1 on the diagonal, all in
    [-1, 1]; with a base, one column of its coefficients with every curve. *)
Theorem C69_correlate : forall t curves labels bl, length labels = length curves -> AllLength t curves -> Forall NonConstant curves ->
  ((2 <= length curves)%nat -> exists d, correlate (mkcmp curves labels None bl) = Ok (mkframe labels (map Some labels) d) /\
     forall i j ci cj, nth_error curves i = Some ci -> nth_error curves j = Some cj ->
       Entry d i j (Pearson ci cj) /\ Entry d j i (Pearson ci cj) /\ -1 <= Pearson ci cj <= 1 /\ Entry d i i 1) /\
  (forall base, (1 <= length curves)%nat -> length base = t -> NonConstant base ->
     correlate (mkcmp curves labels (Some base) bl) = Ok (mkframe labels [bl] (map (fun c => [Pearson base c]) curves)) /\
     Forall (fun c => -1 <= Pearson base c <= 1) curves).
Proof.
  intros t curves labels bl Hl HL HN. assert (HLa : forall c, In c curves -> length c = t) by (unfold AllLength in HL; rewrite Forall_forall in HL; exact HL).
  rewrite Forall_forall in HN. split.
  - intros Hn. eexists. split.
    + unfold correlate. rewrite (validate_true _ t); [reflexivity| |exact HL|discriminate]. split; cbn; [left; lia|now symmetry].
    + intros i j ci cj Hi Hj. pose proof (nth_error_In _ _ Hi) as Ii. pose proof (nth_error_In _ _ Hj) as Ij.
      assert (EL : length ci = length cj) by (rewrite (HLa ci Ii), (HLa cj Ij); reflexivity).
      assert (G : forall i j ci cj, nth_error curves i = Some ci -> nth_error curves j = Some cj ->
        Entry (map (fun ci => map (fun cj => corrcoef ci cj) curves) curves) i j (corrcoef ci cj)).
      { intros a b x y Hx Hy. eexists. split; [rewrite nth_error_map, Hx; reflexivity|]. rewrite nth_error_map, Hy. reflexivity. }
      split; [rewrite <- corr_Pearson by auto; now apply G|]. split; [rewrite Pearson_sym, <- corr_Pearson by auto; now apply G|].
      split; [apply Pearson_range; auto|]. rewrite <- (Pearson_self ci) by auto. rewrite <- corr_Pearson by auto. now apply G.
  - intros base Hn Hb Nb. split; [|apply Forall_forall; intros c Hc; apply Pearson_range; auto; now rewrite (HLa c Hc)].
    unfold correlate. rewrite (validate_true _ t); [|split; [cbn; destruct (Nat.eq_dec (length curves) 1); [right; split; [assumption|discriminate]|left; lia]|now symmetry]|exact HL|intros _ b [= <-]; exact Hb].
    cbn [bind c_base c_curves c_labels c_base_label]. replace (forallb _ curves) with true.
    + f_equal. f_equal. apply map_ext_in. intros c Hc. rewrite corr_Pearson; auto. now rewrite (HLa c Hc).
    + symmetry. apply forallb_forall. intros c Hc. apply Nat.eqb_eq. now rewrite (HLa c Hc).
Qed.
Print Assumptions C69_correlate.
(** C69. A base of another length than the curves is refused, with or without a base label. *)
Theorem C69_lengths : forall t curves labels bl base, length labels = length curves -> (1 <= length curves)%nat -> AllLength t curves -> length base <> t ->
  correlate (mkcmp curves labels (Some base) bl) = Raise ValueError.
Proof.
  intros t curves labels bl base Hl Hn HL Hb. assert (HLa : forall c, In c curves -> length c = t) by (unfold AllLength in HL; rewrite Forall_forall in HL; exact HL).
  destruct curves as [|c0 cs]; [cbn in Hn; lia|]. assert (E0 : length c0 = t) by (apply HLa; now left).
  destruct bl as [b|].
  - unfold correlate, validate. cbn [c_curves c_base c_base_label c_labels nth].
    replace (Nat.ltb (length (c0 :: cs)) 1) with false by reflexivity. rewrite andb_false_r. rewrite Hl, Nat.eqb_refl. cbn [negb].
    rewrite E0, (proj2 (Nat.eqb_neq t (length base))) by lia. reflexivity.
  - unfold correlate. rewrite (validate_true _ t); [|split; [cbn [c_curves c_base c_labels]; destruct (Nat.eq_dec (length (c0 :: cs)) 1); [right; split; [assumption|discriminate]|left; cbn in *; lia]|now symmetry]|exact HL|now intros H; exfalso; apply H].
    cbn [bind c_base c_curves forallb]. rewrite E0, (proj2 (Nat.eqb_neq t (length base))) by lia. reflexivity.
Qed.
Print Assumptions C69_lengths.
Example C69_lengths_case : correlate (mkcmp [[0; 2]; [5; 1]] ["a"; "b"]%string (Some [0; 1; 2]) None) = Raise ValueError.
Proof. apply (C69_lengths 2); [reflexivity|cbn; lia|repeat constructor|discriminate]. Qed.
(** Opposite lines: correlation -1. *)
Example C69_case : NonConstant [0; 2] /\ NonConstant [5; 1] /\ AllLength 2 [[0; 2]; [5; 1]] /\ Pearson [0; 2] [5; 1] = -1.
Proof.
  split; [exists 0, 2; cbn; repeat split; auto; lra|]. split; [exists 5, 1; cbn; repeat split; auto; lra|]. split; [repeat constructor|].
  unfold Pearson, Codev, Rmean. cbn. replace (((0 - (0 + (2 + 0)) / (1 + 1)) * (0 - (0 + (2 + 0)) / (1 + 1)) + ((2 - (0 + (2 + 0)) / (1 + 1)) * (2 - (0 + (2 + 0)) / (1 + 1)) + 0)) * ((5 - (5 + (1 + 0)) / (1 + 1)) * (5 - (5 + (1 + 0)) / (1 + 1)) + ((1 - (5 + (1 + 0)) / (1 + 1)) * (1 - (5 + (1 + 0)) / (1 + 1)) + 0))) with (4 * 4) by field.
  rewrite sqrt_square by lra. field.
Qed.

(** C70 is false of the code: histogram counts do not add up to the number of values, nor do they reflect them: the counters start at
    0, 1, 2, ... and the first value is compared with its own minimum; curves with many values in one bin run off the table. *)
Theorem C70_histogram_refuted :
  (exists (vals endpoints : list Q), length endpoints = 4%nat /\ hist_counts vals endpoints 3 = Ok [0; 1; 2]%Z /\ vals = [0; 3]%Q /\ endpoints = [0; 1; 2; 3]%Q) /\
  (forall x : Q, hist_counts [x; x; x; x] [x; x; x; x] 3 = Raise RuntimeError) /\
  hist_counts [0; 1 # 2; 1]%Q [0; 1 # 2; 1]%Q 2 = Raise RuntimeError.
Proof.
  split; [do 2 eexists; repeat split; vm_compute; reflexivity|]. split; [|vm_compute; reflexivity].
  intros x. assert (E : Qle_bool x x = true) by (apply Qle_bool_iff, Qle_refl). assert (E2 : Qeq_bool x x = true) by apply Qeq_bool_refl.
  unfold hist_counts. assert (ES : np_sort [x; x; x; x] = [x; x; x; x]).
  { cbn -[Qle_bool Qeq_bool]. unfold np_le, np_lt, isnan. cbn -[Qle_bool Qeq_bool]. repeat (rewrite ?E, ?E2; cbn -[Qle_bool Qeq_bool]). reflexivity. }
  rewrite ES. repeat (rewrite ?E; cbn -[Qle_bool Qeq_bool]). reflexivity.
Qed.
Print Assumptions C70_histogram_refuted.
