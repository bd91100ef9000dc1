(** Property theorems about the remaining generators. *)
From Coq Require Import String List ZArith Bool Arith Lia Reals Lra Permutation Sorted.
From Verif Require Import Base S_Order S_EigVals S_Trim S_Generate S_Analytic S_Compare M_Enum M_Generate M_Analytic M_Construct
  P_Order P_Step P_EigVals P_TrimStat P_Analytic P_Generate P_Compare T_Analytic.
Import ListNotations.
Local Open Scope R_scope.
Local Notation length := List.length.

(** ** C89: GOE eigenvalues with their semicircle unfolding *)
Section C89.
Context (St : Type) (sn nn : nat -> St -> list R * St) (cs : list Z -> St -> list R * St) (ev : nat -> (nat -> nat -> R) -> (nat -> nat -> R) -> result (list R)).

(** For every draw and eigensolver returning n >= 1 values: the originals are those values in ascending order, and the i-th unfolded value
    is the semicircle count at the i-th original. *)
Theorem C89_values n st e : (1 <= n)%nat -> length e = n ->
  ev n (goe_tridiagonal sqrt (fst (cs (chi_range n) st)) (fst (nn n (snd (cs (chi_range n) st))))) (fun _ _ => 0) = Ok e ->
  exists f originals unfolded, fst (goe_unfolded St nn cs ev n st) = Ok (originals, unfolded) /\ Permutation e originals /\ Ascending originals /\
    length unfolded = n /\ Ascending unfolded /\ (forall i x, nth_error originals i = Some x -> nth_error unfolded i = Some (f x)) /\
    (forall x, SemicircleCount (INR n) x (f x)) /\ (forall x, 0 <= f x <= INR n) /\ unfold_goe originals = Ok unfolded.
Proof.
  intros Hn Hl He.
  assert (length (np_sort e) = n) as Hl' by (rewrite <- Hl; apply Permutation_length, Permutation_sym, np_sort_perm).
  assert (np_sort e <> []) as Hne by (intro E; rewrite E in Hl'; cbn in Hl'; lia).
  assert (Ascending (np_sort e)) as Ha by (apply np_sort_ascending, notnan_R).
  destruct (proj2 (C26_semicircle_unfolding (np_sort e) (INR n) Ha ltac:(now rewrite Hl')) Hne) as (f & u & E & Hu & Hlu & Hau & Hc & Hr & _).
  exists f, (np_sort e), u. split.
  { unfold goe_unfolded. destruct (cs (chi_range n) st) as [chi st1]. cbn [fst snd] in He. destruct (nn n st1) as [d st2]. cbn [fst snd] in *.
    destruct (Nat.eqb_spec n 0); [lia|]. rewrite He. cbn [bind].
    assert (u = np_sort (map (smooth_goe n) e)) as ->.
    { assert (unfold_goe (np_sort e) = Ok (np_sort (map (smooth_goe (length (np_sort e))) (np_sort e)))) as E' by (unfold unfold_goe; destruct (np_sort e); congruence).
      rewrite Hl' in E'. assert (u = np_sort (map (smooth_goe n) (np_sort e))) as -> by congruence.
      apply np_sort_perm_R. apply Permutation_map. apply Permutation_sym, np_sort_perm. }
    destruct e; [cbn in Hl; lia|]. reflexivity. }
  split; [apply np_sort_perm|]. split; [assumption|]. split; [congruence|]. split; [assumption|]. split; [assumption|]. split; [assumption|].
  split; assumption.
Qed.

(** Above 500 it is Eigenvalues.generate(n, "goe") without a seed followed by unfold_goe, from the same random state and leaving the
    same one. *)
Theorem C89_as_generate seed_with os n st : (500 < Z.of_nat n)%Z ->
  let g := generate sqrt St seed_with os sn nn cs ev n (PStr "goe"%string) None true st in
  snd (goe_unfolded St nn cs ev n st) = snd g /\
  forall o u, fst (goe_unfolded St nn cs ev n st) = Ok (o, u) -> length o = n -> fst g = Ok o /\ unfold_goe o = Ok u.
Proof.
  intros Hn g. assert (g = let '(chi, st2) := cs (chi_range n) st in let '(d, st3) := nn n st2 in
    (let! e := ev n (goe_tridiagonal sqrt chi d) (fun _ _ => n0) in Ok (np_sort e), st3)) as ->.
  { unfold g, generate. cbn -[Z.ltb Z.of_nat Nat.mul]. assert (Z.ltb 500 (Z.of_nat n) = true) as -> by (apply Z.ltb_lt; assumption). reflexivity. }
  unfold goe_unfolded. destruct (cs (chi_range n) st) as [chi st1]. destruct (nn n st1) as [d st2]. split; [reflexivity|].
  cbn [fst]. destruct (Nat.eqb_spec n 0); [lia|]. intros o u H Hl. destruct (ev n _ _) as [e|]; cbn [bind] in *; [|discriminate].
  assert (o = np_sort e /\ u = np_sort (map (smooth_goe n) e)) as [-> ->].
  { destruct e; [discriminate|]. assert (forall (a b c d : list R), Ok (a, b) = Ok (c, d) -> a = c /\ b = d) as I by (intros; split; congruence).
    apply I in H. destruct H; split; congruence. }
  split; [reflexivity|]. unfold unfold_goe. rewrite Hl.
  assert (np_sort (map (smooth_goe n) (np_sort e)) = np_sort (map (smooth_goe n) e)) as <-.
  { apply np_sort_perm_R, Permutation_map, Permutation_sym, np_sort_perm. }
  destruct (np_sort e); [cbn in Hl; lia|reflexivity].
Qed.
(** At most 500, or when the tridiagonal form is declined, the full matrix is used instead, whose entries have another scale (C24). *)
Theorem C89_which_matrix seed_with os n tri st :
  let g := generate sqrt St seed_with os sn nn cs ev n (PStr "goe"%string) None tri st in
  ((500 < n)%nat -> tri = true -> exists chi d, (chi, d) = (fst (cs (chi_range n) st), fst (nn n (snd (cs (chi_range n) st)))) /\
     fst g = (let! e := ev n (goe_tridiagonal sqrt chi d) (fun _ _ => 0) in Ok (np_sort e))) /\
  ((n <= 500)%nat \/ tri = false -> fst g = (let! e := ev n (goe_matrix sqrt n (fst (sn (n * n)%nat st))) (fun _ _ => 0) in Ok (np_sort e)) /\
     snd g = snd (sn (n * n)%nat st)).
Proof.
  intro g. split.
  - intros Hn ->. eexists _, _. split; [reflexivity|]. unfold g, generate. cbn -[Z.ltb Z.of_nat Nat.mul].
    assert (Z.ltb 500 (Z.of_nat n) = true) as -> by (apply Z.ltb_lt; lia). cbn [andb]. destruct (cs (chi_range n) st) as [chi st1]. cbn [fst snd].
    destruct (nn n st1) as [d st2]. reflexivity.
  - intro H. assert (g = let '(d, st2) := sn (n * n)%nat st in (let! e := ev n (goe_matrix sqrt n d) (fun _ _ => n0) in Ok (np_sort e), st2)) as ->.
    { unfold g, generate. cbn -[Z.ltb Z.of_nat Nat.mul]. assert (Z.ltb 500 (Z.of_nat n) && tri = false)%bool as ->; [|reflexivity].
      destruct H as [H| ->]; [|apply andb_false_r]. assert (Z.ltb 500 (Z.of_nat n) = false) as -> by (apply Z.ltb_ge; lia). reflexivity. }
    destruct (sn (n * n)%nat st). split; reflexivity.
Qed.
End C89.
Print Assumptions C89_values.
Print Assumptions C89_as_generate.
Print Assumptions C89_which_matrix.
Example C89_ex : (500 < Z.of_nat 501)%Z /\
  fst (goe_unfolded unit (fun n st => (repeat 0 n, st)) (fun l st => (map IZR l, st)) (fun n _ _ => Ok [5; -7]) 2 tt) = Ok ([-7; 5], [0; 2]) /\
  fst (goe_unfolded unit (fun n st => (repeat 0 n, st)) (fun l st => (map IZR l, st)) (fun n _ _ => Ok []) 0 tt) = Raise ValueError.
Proof.
  split; [lia|]. split; [|reflexivity].
  destruct (C89_values unit (fun n st => (repeat 0 n, st)) (fun l st => (map IZR l, st)) (fun n _ _ => Ok [5; -7]) 2 tt [5; -7] ltac:(lia) eq_refl eq_refl)
    as (f & o & u & -> & Hp & Ha & Hl & _ & Hu & Hc & _ & _).
  assert (o = [-7; 5]) as ->.
  { assert (Ascending [-7; 5]) as A by (apply StronglySorted_R; repeat constructor; lra).
    rewrite <- (np_sort_id o), <- (np_sort_id [-7; 5]).
    - apply np_sort_perm_R. transitivity [5; -7]; [symmetry; assumption|apply perm_swap].
    - apply Ascending_NpLe; [apply notnan_R|assumption].
    - apply Ascending_NpLe; [apply notnan_R|assumption]. }
  pose proof (Hu 0%nat _ eq_refl) as H0. pose proof (Hu 1%nat _ eq_refl) as H1. destruct u as [|a [|b [|]]]; try discriminate.
  cbn in H0, H1. injection H0 as ->. injection H1 as ->. assert (sqrt (2 * INR 2) = 2) as Hs by (cbn; replace (2 * (1 + 1)) with (2 * 2) by ring; apply sqrt_square; lra).
  assert (forall t, -1 <= sin t <= 1) as Hsin by apply SIN_bound. f_equal. f_equal. cbn in Hs.
  assert (f (-7) = 0) as ->.
  { destruct (Hc (-7)) as [[_ ?]|[[? _]|(t & _ & E & _)]]; [assumption|cbn in *; rewrite Hs in *; lra|]. specialize (Hsin t). cbn in E. rewrite Hs in E. lra. }
  assert (f 5 = 2) as ->; [|reflexivity].
  destruct (Hc 5) as [[? _]|[[_ ->]|(t & _ & E & _)]]; [cbn in *; rewrite Hs in *; lra|cbn; lra|]. specialize (Hsin t). cbn in E. rewrite Hs in E. lra.
Qed.

(** ** C90: the correlated system *)
Lemma set_nth_len {A} (l : list A) i v : length (set_nth l i v) = length l.
Proof. revert i. induction l; intros [|i]; cbn; auto. Qed.
Lemma set_nth_other {A} (l : list A) i j v d : i <> j -> nth j (set_nth l i v) d = nth j l d.
Proof. revert i j. induction l; intros [|i] [|j] H; cbn; auto; try congruence. Qed.
Lemma set_nth_same {A} (l : list A) i v d : (i < length l)%nat -> nth i (set_nth l i v) d = v.
Proof. revert i. induction l; intros [|i] H; cbn in *; auto; try lia. apply IHl. lia. Qed.

Lemma correlate_rows_spec (draws : nat -> rowdraw) idx : forall A k, NoDup idx -> ~ In 0%nat idx -> (forall i, In i idx -> (i < length A)%nat) ->
  length (correlate_rows A idx draws k) = length A /\
  (forall j, ~ In j idx -> nth j (correlate_rows A idx draws k) [] = nth j A []) /\
  (forall m i, nth_error idx m = Some i -> nth i (correlate_rows A idx draws k) [] = new_row (draws (k + m)%nat) (nth 0 A [])).
Proof.
  induction idx as [|i idx IH]; intros A k Hd H0 Hr; cbn [correlate_rows].
  - split; [reflexivity|]. split; [reflexivity|]. intros [|m] ? ?; discriminate.
  - inversion Hd; subst. destruct (IH (set_nth A i (new_row (draws k) (nth 0 A []))) (S k)) as (L & O & N); [assumption|now intro; apply H0; right| |].
    { intros j Hj. rewrite set_nth_len. apply Hr. now right. }
    rewrite set_nth_len in L. split; [assumption|].
    assert (nth 0 (set_nth A i (new_row (draws k) (nth 0 A []))) [] = nth 0 A []) as E0 by (apply set_nth_other; intros ->; apply H0; now left).
    rewrite E0 in N. split.
    + intros j Hj. rewrite O by (intro; apply Hj; now right). apply set_nth_other. intros ->. apply Hj. now left.
    + intros [|m] j Hm; cbn in Hm.
      * injection Hm as <-. rewrite O by assumption. rewrite Nat.add_0_r. apply set_nth_same. apply Hr. now left.
      * rewrite (N m j Hm). f_equal. f_equal. lia.
Qed.

(** [perm] is a rearrangement of 0 .. n-2; the signs are +1 or -1, the factors in [1, 2), one noise value per column. *)
Definition GoodDraw (t : nat) (d : rowdraw) : Prop := (r_sign d = 1 \/ r_sign d = -1) /\ 1 <= r_scale d < 2 /\ length (r_noise d) = t.
Lemma rows_ok percent A perm : (1 <= length A)%nat -> Permutation (seq 0 (length A - 1)) perm ->
  NoDup (correlated_rows percent A perm) /\ ~ In 0%nat (correlated_rows percent A perm) /\ forall i, In i (correlated_rows percent A perm) -> (i < length A)%nat.
Proof.
  intros Hn Hp. assert (forall i, In i (map (fun i => (i + 1)%nat) perm) -> (1 <= i < length A)%nat) as H.
  { intros i Hi. apply in_map_iff in Hi. destruct Hi as (j & <- & Hj). apply (Permutation_in _ (Permutation_sym Hp)) in Hj. apply in_seq in Hj. lia. }
  assert (NoDup (map (fun i => (i + 1)%nat) perm)) as Hd.
  { apply FinFun.Injective_map_NoDup; [intros x y; lia|]. eapply Permutation_NoDup; [exact Hp|apply seq_NoDup]. }
  unfold correlated_rows, py_slice. cbv zeta.
  assert (forall a b (l : list nat), NoDup l -> NoDup (firstn a (skipn b l)) /\ incl (firstn a (skipn b l)) l) as G.
  { assert (forall l l' : list nat, NoDup (l ++ l') -> NoDup l /\ NoDup l') as App.
    { intros l l'. induction l as [|x l IH]; cbn; intro Hx; [split; [constructor|assumption]|]. inversion Hx; subst. destruct IH; [assumption|].
      split; [|assumption]. constructor; [|assumption]. intro. apply H2. apply in_or_app. now left. }
    intros a b l Hl. split.
    - rewrite <- (firstn_skipn b l) in Hl. apply App in Hl. destruct Hl as [_ Hl]. rewrite <- (firstn_skipn a (skipn b l)) in Hl. now apply App in Hl.
    - intros x Hx. rewrite <- (firstn_skipn b l). apply in_or_app. right. rewrite <- (firstn_skipn a (skipn b l)). apply in_or_app. now left. }
  destruct (G (Z.to_nat (py_clip (Z.of_nat (length (map (fun i => (i + 1)%nat) perm))) (Int_part (percent / 100 * INR (length A))) -
     py_clip (Z.of_nat (length (map (fun i => (i + 1)%nat) perm))) 0)) (Z.to_nat (py_clip (Z.of_nat (length (map (fun i => (i + 1)%nat) perm))) 0)) _ Hd) as [G1 G2].
  split; [exact G1|]. split; [intro Hi; apply G2, H in Hi; lia|]. intros i Hi. apply G2, H in Hi. lia.
Qed.
Lemma rows_count percent A perm : (1 <= length A)%nat -> length perm = (length A - 1)%nat -> 0 <= percent ->
  Z.of_nat (length (correlated_rows percent A perm)) = Z.min (Z.of_nat (length A) - 1) (Int_part (percent / 100 * INR (length A))).
Proof.
  intros Hn Hl Hp. unfold correlated_rows. cbv zeta. set (z := Int_part _).
  assert (0 <= z)%Z as Hz.
  { assert (0 <= percent / 100 * INR (length A)) as P by (apply Rmult_le_pos; [lra|apply pos_INR]).
    destruct (base_Int_part (percent / 100 * INR (length A))) as [_ B]. fold z in B. assert (-1 < IZR z) as B' by lra. apply lt_IZR in B'. lia. }
  unfold py_slice. cbv zeta. rewrite map_length, Hl. unfold py_clip. destruct (Z.ltb_spec z 0); [lia|]. cbn [Z.ltb Z.compare].
  rewrite firstn_length, skipn_length, map_length, Hl. lia.
Qed.

(** Row 0 is never changed; of the others, the rows chosen -- as many as the percentage asks for, rounded down, at most n-1 --
    become, each with its own draws, a multiple of row 0 plus noise; all other rows stay as they were. *)
Theorem C90_rows percent A perm draws t : (1 <= length A)%nat -> Permutation (seq 0 (length A - 1)) perm -> 0 <= percent ->
  length (nth 0 A []) = t -> (forall k, GoodDraw t (draws k)) ->
  let A' := correlated_array percent A perm draws in let chosen := correlated_rows percent A perm in
  length A' = length A /\ NoDup chosen /\
  (Z.of_nat (length chosen) = Z.min (Z.of_nat (length A) - 1) (Int_part (percent / 100 * INR (length A))))%Z /\
  nth 0 A' [] = nth 0 A [] /\ (forall i, ~ In i chosen -> nth i A' [] = nth i A []) /\
  (forall i, In i chosen -> (1 <= i < length A)%nat /\ exists c noise, 1 <= Rabs c < 2 /\ length noise = t /\ length (nth i A' []) = t /\
     forall j, (j < t)%nat -> nth j (nth i A' []) 0 = c * (nth j (nth 0 A []) 0 + nth j noise 0)).
Proof.
  intros Hn Hp Hpc Ht Hg A' chosen. destruct (rows_ok percent A perm Hn Hp) as (R1 & R2 & R3).
  destruct (correlate_rows_spec draws chosen A 0 R1 R2 R3) as (L & O & N). change (correlate_rows A chosen draws 0) with A' in L, O, N.
  split; [assumption|]. split; [assumption|]. split.
  { apply rows_count; [assumption| |assumption]. apply Permutation_length in Hp. rewrite seq_length in Hp. congruence. }
  split; [now apply O|]. split; [assumption|]. intros i Hi. split.
  { specialize (R3 i Hi). assert (i <> 0%nat) by (intros ->; auto). lia. }
  destruct (In_nth_error _ _ Hi) as [m Hm]. rewrite (N m i Hm). cbn [Nat.add]. destruct (Hg m) as (G1 & G2 & G3).
  exists (r_sign (draws m) * r_scale (draws m)), (r_noise (draws m)). split.
  { rewrite Rabs_mult, (Rabs_pos_eq (r_scale _)) by lra. destruct G1 as [-> | ->]; [rewrite Rabs_R1|rewrite Rabs_left by lra]; lra. }
  assert (length (combine (nth 0 A []) (r_noise (draws m))) = t) as Lc by (rewrite combine_length; lia).
  split; [assumption|]. unfold new_row. split; [now rewrite map_length|]. intros j Hj.
  rewrite (nth_indep _ 0 (r_sign (draws m) * r_scale (draws m) * (fst (0, 0) + snd (0, 0)))) by (rewrite map_length; lia).
  rewrite (map_nth (fun p => r_sign (draws m) * r_scale (draws m) * (fst p + snd p))). rewrite combine_nth by congruence. reflexivity.
Qed.

Lemma Rsum_scale c l : Rsum (map (fun x => c * x) l) = c * Rsum l.
Proof. induction l as [|a l IH]; cbn; [ring|]. rewrite IH. ring. Qed.
Lemma Codev_scale a b x : Codev (map (fun y => a * y) x) (map (fun y => b * y) x) = a * b * Codev x x.
Proof.
  unfold Codev. assert (forall c, Rmean (map (fun y => c * y) x) = c * Rmean x) as M.
  { intro c. unfold Rmean. rewrite Rsum_scale, map_length. unfold Rdiv. ring. }
  rewrite !M, <- Rsum_scale, map_map. f_equal. clear. generalize (Rmean x). intro m. induction x as [|y x IH]; cbn; [reflexivity|]. rewrite IH. f_equal. ring.
Qed.

(** Without noise, every two of row 0 and the chosen rows are perfectly correlated, positively or negatively according to their signs. *)
Theorem C90_perfect percent A perm draws t : (1 <= length A)%nat -> Permutation (seq 0 (length A - 1)) perm ->
  length (nth 0 A []) = t -> (forall k, GoodDraw t (draws k)) -> (forall k, r_noise (draws k) = repeat 0 t) -> NonConstant (nth 0 A []) ->
  let A' := correlated_array percent A perm draws in let chosen := correlated_rows percent A perm in
  forall i j, (i = 0%nat \/ In i chosen) -> (j = 0%nat \/ In j chosen) -> Pearson (nth i A' []) (nth j A' []) = 1 \/ Pearson (nth i A' []) (nth j A' []) = -1.
Proof.
  intros Hn Hp Ht Hg H0 Hc A' chosen. destruct (rows_ok percent A perm Hn Hp) as (R1 & R2 & R3).
  destruct (correlate_rows_spec draws chosen A 0 R1 R2 R3) as (L & O & N). change (correlate_rows A chosen draws 0) with A' in L, O, N.
  set (x := nth 0 A []) in *.
  assert (forall i, i = 0%nat \/ In i chosen -> exists c, c <> 0 /\ nth i A' [] = map (fun y => c * y) x) as G.
  { intros i [->|Hi].
    - exists 1. split; [lra|]. rewrite O by assumption. fold x. clear. induction x; cbn; [reflexivity|]. f_equal; [ring|assumption].
    - destruct (In_nth_error _ _ Hi) as [m Hm]. rewrite (N m i Hm). cbn [Nat.add]. destruct (Hg m) as (G1 & G2 & G3).
      exists (r_sign (draws m) * r_scale (draws m)). split; [destruct G1 as [-> | ->]; lra|]. unfold new_row. rewrite H0, <- Ht.
      generalize (r_sign (draws m) * r_scale (draws m)). clear. intro c. induction x; cbn; [reflexivity|]. f_equal; [ring|assumption]. }
  intros i j Hi Hj. destruct (G i Hi) as (a & Ha & ->). destruct (G j Hj) as (b & Hb & ->). unfold Pearson. rewrite !Codev_scale.
  pose proof (Codev_pos x Hc) as P. replace (a * a * Codev x x * (b * b * Codev x x)) with ((a * b * Codev x x) * (a * b * Codev x x)) by ring.
  fold (Rsqr (a * b * Codev x x)). rewrite sqrt_Rsqr_abs.
  assert (a * b * Codev x x <> 0) as Hne by (repeat apply Rmult_integral_contrapositive_currified; lra).
  unfold Rabs. destruct (Rcase_abs _); [right|left]; field; repeat split; try lra; auto.
Qed.

(** A negative percentage, asking for no correlation at all, is not refused: the slice then counts from the end and all but a few of the
    rows are replaced. *)
Theorem C90_negative_refuted n A perm : length A = n -> (2 <= n)%nat -> length perm = (n - 1)%nat ->
  Z.of_nat (length (correlated_rows (- (100 / INR n)) A perm)) = (Z.of_nat n - 2)%Z.
Proof.
  intros Hl Hn Hp. unfold correlated_rows. cbv zeta.
  assert (0 < INR n) as Hpos by (apply lt_0_INR; lia).
  assert (Int_part (- (100 / INR n) / 100 * INR (length A)) = -1)%Z as ->.
  { rewrite Hl. replace (- (100 / INR n) / 100 * INR n) with (-1) by (field; lra).
    pose proof (base_Int_part (-1)) as [B1 B2]. assert (IZR (Int_part (-1)) <= IZR (-1)) as B1' by (exact B1). apply le_IZR in B1'.
    assert (IZR (-2) < IZR (Int_part (-1))) as B2' by (cbn; lra). apply lt_IZR in B2'. lia. }
  unfold py_slice. cbv zeta. rewrite map_length, Hp. unfold py_clip. cbn [Z.ltb Z.compare].
  rewrite firstn_length, skipn_length, map_length, Hp. lia.
Qed.
Print Assumptions C90_rows.
Print Assumptions C90_perfect.
Print Assumptions C90_negative_refuted.
Example C90_ex : let A := [[1; 2]; [5; 6]; [7; 7]; [8; 9]] in
  Permutation (seq 0 (length A - 1)) [2; 0; 1]%nat /\ GoodDraw 2 (mkdraw (-1) (3 / 2) [0; 0]) /\ NonConstant [1; 2] /\
  correlated_rows 60 A [2; 0; 1]%nat = [3; 1]%nat /\
  correlated_array 60 A [2; 0; 1]%nat (fun _ => mkdraw (-1) 1 [0; 0]) = [[1; 2]; [-1 * 1 * (1 + 0); -1 * 1 * (2 + 0)]; [7; 7]; [-1 * 1 * (1 + 0); -1 * 1 * (2 + 0)]].
Proof.
  cbv zeta. split.
  { cbn. apply Permutation_sym. apply perm_trans with [0; 2; 1]%nat; [apply perm_swap|]. constructor. apply perm_swap. }
  split; [split; [now right|cbn; split; [lra|reflexivity]]|]. split; [exists 1, 2; cbn; repeat split; [now left|right; now left|lra]|].
  assert (correlated_rows 60 [[1; 2]; [5; 6]; [7; 7]; [8; 9]] [2; 0; 1]%nat = [3; 1]%nat) as E.
  { unfold correlated_rows. cbv zeta. assert (Int_part (60 / 100 * INR (length [[1; 2]; [5; 6]; [7; 7]; [8; 9]])) = 2%Z) as ->; [|reflexivity].
    cbn [length INR]. set (y := 60 / 100 * _). assert (y = 2.4) as -> by (unfold y; lra). destruct (base_Int_part 2.4) as [B1 B2].
    assert (IZR (Int_part 2.4) < IZR 3) as B1' by lra. assert (IZR 1 < IZR (Int_part 2.4)) as B2' by lra. apply lt_IZR in B1'. apply lt_IZR in B2'. lia. }
  split; [exact E|]. unfold correlated_array. rewrite E. reflexivity.
Qed.

(** ** C91: the direct tridiagonal generator *)
Section C91.
Context (St : Type) (nn : nat -> St -> list R * St) (cs : list Z -> St -> list R * St) (evt : list R -> list R -> list R).
(** It returns as many values as asked for: the spectrum of a matrix of order n + 2 without its smallest and its largest value. *)
Theorem C91_middle n st chi d : fst (cs (chi_range (n + 2)) st) = chi -> fst (nn (n + 2)%nat (snd (cs (chi_range (n + 2)) st))) = d ->
  let all := evt (direct_diagonal d) (direct_off chi) in length all = (n + 2)%nat -> Ascending all -> (1 <= n)%nat ->
  exists lo mid hi, fst (goe_tridiagonal_direct St nn cs evt n st) = Ok mid /\ all = lo :: mid ++ [hi] /\
    length mid = n /\ Ascending mid /\ forall x, In x mid -> lo <= x <= hi.
Proof.
  intros Hc Hd all Hl Ha Hn. unfold goe_tridiagonal_direct. destruct (cs (chi_range (n + 2)) st) as [chi' st1]. cbn [fst snd] in *. subst chi'.
  destruct (nn (n + 2)%nat st1) as [d' st2]. cbn [fst snd] in *. subst d'. fold all. destruct (Nat.ltb_spec (n + 2 - 2) 1); [lia|].
  replace (n + 2 - 2 + 1 - 1)%nat with n by lia. destruct all as [|lo rest]; [cbn in Hl; lia|]. cbn [skipn]. cbn in Hl.
  destruct (exists_last (l := rest)) as (mid & hi & ->); [intros ->; cbn in Hl; lia|]. rewrite app_length in Hl. cbn in Hl.
  assert (length mid = n) as Hm by lia. exists lo, mid, hi. rewrite <- Hm at 1. rewrite firstn_app, Nat.sub_diag, firstn_all, app_nil_r.
  split; [reflexivity|]. split; [reflexivity|]. split; [assumption|]. unfold Ascending in Ha. inversion Ha as [|? ? H1 H2]; subst. clear Ha.
  split.
  { unfold Ascending. clear - H1. induction mid as [|a mid IH]; [constructor|]. inversion H1; subst. constructor; [now apply IH|].
    match goal with H : List.Forall _ _ |- _ => apply Forall_app in H; apply H end. }
  intros x Hx. split.
  - rewrite Forall_forall in H2. apply Le_R. apply H2. apply in_or_app. now left.
  - clear - H1 Hx. induction mid as [|a mid IH]; [destruct Hx|]. inversion H1 as [|? ? G1 G2]; subst. destruct Hx as [->|Hx]; [|now apply IH].
    rewrite Forall_forall in G2. apply Le_R, G2, in_or_app. right. now left.
Qed.
End C91.
(** (False of the code: the matrix is a tridiagonal GOE matrix up to scale.)  The diagonal is divided by sqrt 2 and the off-diagonal is not: the
    second moments are those of the GOE at no scale at all, and the off-diagonal ones are twice those of the other generator. *)
Theorem C91_scale_refuted n Omega (E : (Omega -> R) -> R) (chisq normals : Omega -> list R) : (2 <= n)%nat -> Expectation E ->
  (forall w k, 0 <= nth k (chisq w) 0) ->
  (forall k dof, nth_error (chi_range n) k = Some dof -> E (fun w => nth k (chisq w) 0) = IZR dof) ->
  (forall i, (i < n)%nat -> E (fun w => nth i (normals w) 0 * nth i (normals w) 0) = 2) ->
  (forall i, (i < n)%nat -> E (fun w => nth i (direct_diagonal (normals w)) 0 * nth i (direct_diagonal (normals w)) 0) =
     E (fun w => goe_tridiagonal sqrt (chisq w) (normals w) i i * goe_tridiagonal sqrt (chisq w) (normals w) i i)) /\
  (forall i, (S i < n)%nat -> E (fun w => nth i (direct_off (chisq w)) 0 * nth i (direct_off (chisq w)) 0) =
     2 * E (fun w => goe_tridiagonal sqrt (chisq w) (normals w) i (S i) * goe_tridiagonal sqrt (chisq w) (normals w) i (S i))) /\
  ~ exists s, (forall i, (i < n)%nat -> E (fun w => nth i (direct_diagonal (normals w)) 0 * nth i (direct_diagonal (normals w)) 0) = 2 * s) /\
     (forall k dof, nth_error (chi_range n) k = Some dof -> E (fun w => nth k (direct_off (chisq w)) 0 * nth k (direct_off (chisq w)) 0) = s * IZR dof).
Proof.
  intros Hn HE Hpos Hchi Hnorm.
  assert (forall l i, nth i (direct_diagonal l) 0 = nth i l 0 / sqrt 2) as Hd.
  { intros l i. unfold direct_diagonal. rewrite <- (map_nth (fun x => x / sqrt 2)). f_equal. unfold Rdiv. ring. }
  assert (forall l i, nth i (direct_off l) 0 = sqrt (nth i l 0)) as Ho.
  { intros l i. unfold direct_off. rewrite <- (map_nth sqrt), sqrt_0. reflexivity. }
  assert (forall k dof, nth_error (chi_range n) k = Some dof -> E (fun w => nth k (direct_off (chisq w)) 0 * nth k (direct_off (chisq w)) 0) = IZR dof) as Ho'.
  { intros k dof Hk. rewrite (exp_ext E HE _ (fun w => nth k (chisq w) 0)); [now apply Hchi|]. intro w. rewrite Ho. apply sqrt_sqrt, Hpos. }
  assert (forall i, (i < n)%nat -> E (fun w => nth i (direct_diagonal (normals w)) 0 * nth i (direct_diagonal (normals w)) 0) = 1) as Hd'.
  { intros i Hi. rewrite (exp_ext E HE _ (fun w => / 2 * (nth i (normals w) 0 * nth i (normals w) 0))).
    - rewrite (exp_scale E HE (/ 2) (fun w => nth i (normals w) 0 * nth i (normals w) 0)), Hnorm by assumption. lra.
    - intro w. rewrite Hd. transitivity (nth i (normals w) 0 * nth i (normals w) 0 / (sqrt 2 * sqrt 2)); [field; exact sqrt2_nz|]. rewrite sqrt2_sq. field. }
  split; [|split].
  - intros i Hi. apply (exp_ext E HE). intro w. rewrite tri_entry, Hd, Nat.eqb_refl. reflexivity.
  - intros i Hi. rewrite <- (exp_scale E HE 2 (fun w => goe_tridiagonal sqrt (chisq w) (normals w) i (S i) * goe_tridiagonal sqrt (chisq w) (normals w) i (S i))).
    apply (exp_ext E HE). intro w. rewrite tri_entry, Ho. destruct (Nat.eqb_spec i (S i)); [lia|]. destruct (Nat.eqb_spec i (S (S i))); [lia|].
    rewrite Nat.eqb_refl. set (x := sqrt (nth i (chisq w) 0)). transitivity (2 * (x * x) / (sqrt 2 * sqrt 2)); [rewrite sqrt2_sq; field|field; exact sqrt2_nz].
  - intros (s & S1 & S2). pose proof (chi_range_nth n (n - 2) ltac:(lia)) as Hk. specialize (S1 0%nat ltac:(lia)). rewrite Hd' in S1 by lia.
    specialize (S2 _ _ Hk). rewrite (Ho' _ _ Hk) in S2. replace (Z.of_nat (n - 1 - (n - 2))) with 1%Z in S2 by lia. lra.
Qed.
Print Assumptions C91_middle.
Print Assumptions C91_scale_refuted.
(** C91. It fails for size 0 only, and then only after the random numbers were drawn. *)
Theorem C91_fails : forall St nn cs evt n (st : St) e,
  (fst (goe_tridiagonal_direct St nn cs evt n st) = Raise e <-> n = 0%nat /\ e = ValueError) /\
  snd (goe_tridiagonal_direct St nn cs evt n st) = snd (nn (n + 2)%nat (snd (cs (chi_range (n + 2)) st))).
Proof.
  intros St nn cs evt n st e. unfold goe_tridiagonal_direct. destruct (cs (chi_range (n + 2)) st) as [chi st1]. cbn [snd]. destruct (nn (n + 2)%nat st1) as [d st2]. cbn [fst snd].
  split; [|reflexivity]. destruct (Nat.ltb_spec (n + 2 - 2) 1); split; try discriminate; [intros [= <-]; split; [lia|reflexivity]|now intros [_ ->]|intros [-> _]; lia].
Qed.
Print Assumptions C91_fails.
Example C91_ex : let cs := fun (l : list Z) (st : unit) => (map IZR l, st) in let nn := fun n (st : unit) => (repeat (sqrt 2) n, st) in
  fst (goe_tridiagonal_direct unit nn cs (fun _ _ => [-3; 0; 1; 4]) 2 tt) = Ok [0; 1] /\
  fst (goe_tridiagonal_direct unit nn cs (fun _ _ => [-3; 0]) 0 tt) = Raise ValueError /\
  length [-3; 0; 1; 4] = (2 + 2)%nat /\ Ascending [-3; 0; 1; 4] /\
  Expectation (fun X : unit -> R => X tt) /\ (forall k, 0 <= nth k [1] 0) /\ (forall k dof, nth_error (chi_range 2) k = Some dof -> nth k [1] 0 = IZR dof) /\
  (forall i, (i < 2)%nat -> nth i [sqrt 2; sqrt 2] 0 * nth i [sqrt 2; sqrt 2] 0 = 2).
Proof.
  cbv zeta. split; [reflexivity|]. split; [reflexivity|]. split; [reflexivity|]. split; [apply StronglySorted_R; repeat constructor; lra|].
  split; [split; auto|]. split; [intros [|[|k]]; cbn; lra|].
  split; [intros [|k] dof H; cbn in H; [injection H as <-; reflexivity|destruct k; discriminate]|].
  intros [|[|i]] Hi; [| |lia]; cbn; apply sqrt2_sq.
Qed.
