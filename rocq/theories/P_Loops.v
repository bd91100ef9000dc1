(** Proofs about the sampling loops. *)
From Coq Require Import List ZArith Bool Arith Lia Reals Lra Sorting.Permutation.
From Verif Require Import Base S_Order S_EigVals S_Trim M_Step M_Quad M_Loops S_Quad S_Loops P_Order P_Step P_EigVals P_TrimStat P_TrimFull P_Quad P_Ols.
Import ListNotations.
Local Notation length := List.length.

(** ** Ring buffer *)
Section Ring.
Context {F : Type}.
Variable size : Z.
Hypothesis Hsize : (0 < size)%Z.
(** The latest index <= k congruent to i. *)
Definition latest (k i : Z) : Z := (k - (k - i) mod size)%Z.
Lemma latest_step_same k : latest (k + 1) ((k + 1) mod size) = (k + 1)%Z.
Proof.
  unfold latest. replace ((k + 1 - (k + 1) mod size) mod size)%Z with 0%Z; [lia|].
  rewrite Zminus_mod, Z.mod_mod by lia. now rewrite Z.sub_diag, Z.mod_0_l by lia.
Qed.
Lemma latest_step_other k i : (0 <= i < size)%Z -> i <> ((k + 1) mod size)%Z -> latest (k + 1) i = latest k i.
Proof.
  intros Hi Hne. unfold latest. set (r := ((k - i) mod size)%Z).
  assert (Hr : (0 <= r < size)%Z) by (apply Z.mod_pos_bound; lia).
  assert (Hd : (k - i = size * ((k - i) / size) + r)%Z) by (apply Z.div_mod; lia).
  destruct (Z.eq_dec r (size - 1)) as [E|E].
  - exfalso. apply Hne. apply (Z.mod_unique_pos _ _ ((k - i) / size + 1)); lia.
  - assert (E2 : ((k + 1 - i) mod size = r + 1)%Z) by (symmetry; apply (Z.mod_unique_pos _ _ ((k - i) / size)); lia).
    rewrite E2. lia.
Qed.
Lemma latest_bounds k i : (k - size < latest k i <= k)%Z.
Proof. unfold latest. pose proof (Z.mod_pos_bound (k - i) size Hsize). lia. Qed.
Lemma latest_mod k i : (0 <= i < size)%Z -> (latest k i mod size = i)%Z.
Proof.
  intros Hi. unfold latest. rewrite (Z.mod_eq (k - i) size) by lia. symmetry. apply (Z.mod_unique_pos _ _ ((k - i) / size)); lia.
Qed.

Variable init : list F.
Hypothesis Hinit : length init = Z.to_nat size.
Variable f : Z -> F.
Variable d : F.
Variable j0 : Z.
(** Contents of the window (k - size, k]: written values after [j0], initial ones before. *)
Definition content (j : Z) : F := if (j0 <? j)%Z then f j else nth (Z.to_nat (j mod size)) init d.

Fixpoint ring (m : nat) : list F :=
  match m with
  | O => init
  | S m' => set_nth (ring m') (Z.to_nat ((j0 + Z.of_nat m) mod size)) (f (j0 + Z.of_nat m))
  end.
Lemma ring_length m : length (ring m) = Z.to_nat size.
Proof. induction m; cbn [ring]; [exact Hinit|]. now rewrite set_nth_length. Qed.
Lemma ring_nth m i : (0 <= i < size)%Z -> nth_error (ring m) (Z.to_nat i) = Some (content (latest (j0 + Z.of_nat m) i)).
Proof.
  intros Hi. induction m as [|m IH].
  - cbn [ring]. rewrite (nth_error_nth' init d) by lia. f_equal. unfold content.
    pose proof (latest_bounds (j0 + Z.of_nat 0) i). replace (j0 <? latest (j0 + Z.of_nat 0) i)%Z with false by (symmetry; apply Z.ltb_ge; lia).
    now rewrite latest_mod.
  - cbn [ring]. replace (j0 + Z.of_nat (S m))%Z with (j0 + Z.of_nat m + 1)%Z by lia. set (k := (j0 + Z.of_nat m)%Z) in *.
    pose proof (Z.mod_pos_bound (k + 1) size Hsize) as B.
    destruct (Z.eq_dec i ((k + 1) mod size)) as [->|E].
    + rewrite set_nth_same by (rewrite ring_length; lia). rewrite latest_step_same. unfold content.
      replace (j0 <? k + 1)%Z with true by (symmetry; apply Z.ltb_lt; lia). reflexivity.
    + rewrite set_nth_other by lia. rewrite IH. now rewrite latest_step_other.
Qed.
Lemma ring_content m : ring m = map (fun i => content (latest (j0 + Z.of_nat m) (Z.of_nat i))) (seq 0 (Z.to_nat size)).
Proof.
  apply nth_error_ext. intros i. destruct (lt_dec i (Z.to_nat size)) as [H|H].
  - rewrite <- (Nat2Z.id i) at 1. rewrite ring_nth by lia. rewrite nth_error_map.
    rewrite (nth_error_nth' (seq 0 (Z.to_nat size)) 0%nat) by now rewrite seq_length. rewrite seq_nth by exact H. reflexivity.
  - rewrite !(proj2 (nth_error_None _ _)); [reflexivity| |]; rewrite ?map_length, ?seq_length, ?ring_length; lia.
Qed.
Lemma latest_perm k : Permutation (map (fun i => latest k (Z.of_nat i)) (seq 0 (Z.to_nat size)))
  (map (fun t => (k - Z.of_nat t)%Z) (seq 0 (Z.to_nat size))).
Proof.
  apply NoDup_Permutation_bis.
  - assert (G : forall l, NoDup l -> Forall (fun i => (i < Z.to_nat size)%nat) l -> NoDup (map (fun i => latest k (Z.of_nat i)) l)).
    { induction 1 as [|a l Ha Hl IH]; intros HF; cbn; [constructor|]. inversion HF as [|? ? H1 H2]; subst. constructor; [|now apply IH].
      intros Hin. apply in_map_iff in Hin as (b & Hb & Hin). rewrite Forall_forall in H2. specialize (H2 _ Hin).
      assert (Z.of_nat b = Z.of_nat a). { rewrite <- (latest_mod k (Z.of_nat a)) by lia. rewrite <- Hb. rewrite latest_mod; lia. }
      assert (b = a) by lia. subst. contradiction. }
    apply G; [apply seq_NoDup|]. apply Forall_forall. intros i Hi. apply in_seq in Hi. lia.
  - now rewrite !map_length.
  - intros j Hj. apply in_map_iff in Hj as (i & <- & Hi). apply in_seq in Hi. pose proof (latest_bounds k (Z.of_nat i)) as B.
    apply in_map_iff. exists (Z.to_nat (k - latest k (Z.of_nat i))). split; [lia|]. apply in_seq. lia.
Qed.
Lemma ring_perm m : Permutation (ring m) (map (fun t => content (j0 + Z.of_nat m - Z.of_nat t)) (seq 0 (Z.to_nat size))).
Proof.
  rewrite ring_content. rewrite <- (map_map (fun i => latest (j0 + Z.of_nat m) (Z.of_nat i)) content).
  rewrite <- (map_map (fun t => (j0 + Z.of_nat m - Z.of_nat t)%Z) content). apply Permutation_map, latest_perm.
Qed.
End Ring.

(** ** Level variance: the loop for any float type *)
Section SigmaGeneric.
Context {F : Type} {N : Num F}.
Variables (size : Z) (u : list F) (L : F) (c : nat -> F).
Fixpoint s_after (k : nat) : sstate :=
  match k with O => sigma_init size u L (c 0%nat) | S k' => sigma_pass size u L (c k) (s_after k') end.
Lemma s_after_k k : s_k (s_after k) = Z.of_nat k.
Proof. induction k as [|k IH]; [reflexivity|]. cbn [s_after sigma_pass s_k]. rewrite IH. lia. Qed.
End SigmaGeneric.

Lemma sigma_loop_done {F} {N : Num F} size (u : list F) lo hi L mx mn tol draws fuel : forall j,
  (Z.max 1 mx <= Z.of_nat (fuel + j))%Z -> (0 < fuel)%nat ->
  let c i := uniform lo hi (draws i) in
  exists k, sigma_loop fuel size u lo hi L mx mn tol draws (S j) (s_after size u L c j) = Done (s_after size u L c k) /\
    (j < k)%nat /\ (Z.of_nat k <= Z.max (Z.of_nat (S j)) mx)%Z /\ sigma_stop mx mn tol (s_after size u L c k) = true /\
    forall i, (j < i < k)%nat -> sigma_stop mx mn tol (s_after size u L c i) = false.
Proof.
  induction fuel as [|fuel IH]; intros j H H0 c; [lia|]. cbn [sigma_loop].
  change (sigma_pass size u L (uniform lo hi (draws (S j))) (s_after size u L c j)) with (s_after size u L c (S j)).
  destruct (sigma_stop mx mn tol (s_after size u L c (S j))) eqn:E.
  - exists (S j). repeat split; auto; try lia. 
  - assert (Hlt : (Z.of_nat (S j) < mx)%Z).
    { unfold sigma_stop in E. rewrite s_after_k in E. apply orb_false_iff in E as (_ & E). apply Z.leb_gt in E. exact E. }
    destruct (IH (S j) ltac:(lia) ltac:(lia)) as (k & Hk & H1 & H2 & H3 & H4). exists k. fold c in Hk, H3, H4. repeat split; auto; try lia.
    intros i Hi. destruct (Nat.eq_dec i (S j)) as [->|]; [exact E|]. apply H4. lia.
Qed.

(** What [sigma_L] returns, for any float type: the state after [k] passes, [k] being the first pass whose stop test succeeds. *)
Lemma sigma_L_run {F} {N : Num F} (h : F) t L mx tol mn draws :
  let u := h :: t in let c i := uniform (nmin h t) (nmax h t) (draws i) in let S_ := s_after BUFFER u L c in
  exists k, sigma_L u L mx tol mn draws = Ok (Done (s_sigma (S_ k), spread_below (s_buf (S_ k)) tol, Z.of_nat k)) /\
    (1 <= k)%nat /\ (Z.of_nat k <= Z.max 1 mx)%Z /\
    (Z.of_nat k < mx -> (mn < Z.of_nat k)%Z /\ (Z.of_nat k mod 500 = 0)%Z /\ spread_below (s_buf (S_ k)) tol = true)%Z /\
    (forall i, (1 <= i < k)%nat -> (Z.of_nat i < mx)%Z /\
       ~ ((mn < Z.of_nat i)%Z /\ (Z.of_nat i mod 500 = 0)%Z /\ spread_below (s_buf (S_ i)) tol = true)).
Proof.
  intros u c S_.
  assert (Hf : (0 < Z.to_nat (Z.max 1 mx))%nat) by lia.
  destruct (sigma_loop_done BUFFER u (nmin h t) (nmax h t) L mx mn tol draws (Z.to_nat (Z.max 1 mx)) 0 ltac:(lia) Hf) as (k & Hk & H1 & H2 & H3 & H4).
  fold c in Hk, H3, H4. fold S_ in Hk, H3, H4. exists k.
  assert (E : sigma_L u L mx tol mn draws = Ok match sigma_loop (Z.to_nat (Z.max 1 mx)) BUFFER u (nmin h t) (nmax h t) L mx mn tol draws 1 (S_ 0%nat) with
     | Done s => Done (s_sigma s, spread_below (s_buf s) tol, s_k s) | OutOfBounds => OutOfBounds | Running => Running end) by reflexivity.
  rewrite E, Hk. clear E Hk.
  split. { unfold S_ at 3. now rewrite s_after_k. } split; [lia|]. split; [lia|]. split.
  - intros Hlt. unfold sigma_stop in H3. unfold S_ in H3 at 1 2 4. rewrite s_after_k in H3.
    replace (mx <=? Z.of_nat k)%Z with false in H3 by (symmetry; apply Z.leb_gt; lia). rewrite orb_false_r in H3.
    apply andb_true_iff in H3 as (H3 & H5). apply andb_true_iff in H3 as (H3 & H6). apply Z.ltb_lt in H3. apply Z.eqb_eq in H6. auto.
  - intros i Hi. specialize (H4 i ltac:(lia)). unfold sigma_stop in H4. unfold S_ in H4 at 1 2 4. rewrite s_after_k in H4.
    apply orb_false_iff in H4 as (H4 & H5). apply Z.leb_gt in H5. split; [exact H5|]. intros (A & B & C).
    rewrite C in H4. apply Z.ltb_lt in A. apply Z.eqb_eq in B. rewrite A, B in H4. discriminate.
Qed.

(** ** Level variance over exact reals *)
Local Open Scope R_scope.
Lemma nle_R_true (x y : R) : nle x y = true <-> x <= y.
Proof. cbn. destruct (Rle_dec x y); split; intros; auto; try lra; discriminate. Qed.
Lemma n_within_R u L c : n_within u L c = Z.of_nat (CountIn u (c - L / 2) (c + L / 2)).
Proof.
  unfold n_within. cbn [nsub nadd ndiv nofZ Num_R]. f_equal. induction u as [|x u IH]; [reflexivity|]. cbn [filter CountIn].
  rewrite <- IH. unfold nge. cbn [nle Num_R]. destruct (Rle_dec (c - L / 2) x), (Rle_dec x (c + L / 2)); cbn [andb length]; lia.
Qed.
Lemma CountIn_le u lo hi : (CountIn u lo hi <= length u)%nat.
Proof. induction u as [|x u IH]; cbn; [lia|]. destruct (Rle_dec lo x); [destruct (Rle_dec x hi)|]; lia. Qed.
Lemma kahan_R s v : kahan_add s v 0 = (s + v, 0).
Proof. unfold kahan_add. cbn. f_equal; ring. Qed.

Definition cnt (u : list R) (L : R) (c : nat -> R) (j : nat) : R := INR (CountIn u (c j - L / 2) (c j + L / 2)).
Lemma seq_map_S {A} (f : nat -> A) k : map f (seq 1 (S k)) = map f (seq 1 k) ++ [f (S k)].
Proof. rewrite seq_S, map_app. reflexivity. Qed.
Lemma Rsum_app l l' : Rsum (l ++ l') = Rsum l + Rsum l'.
Proof. induction l as [|a l IH]; cbn [app]; [cbn; lra|]. rewrite !Rsum_cons, IH. lra. Qed.

Section SigmaR.
Variables (size : Z) (u : list R) (L : R) (c : nat -> R).
Notation n := (cnt u L c).
Lemma s_after_R k : let s := s_after size u L c k in
  s_cmean s = 0 /\ s_csq s = 0 /\
  ((1 <= k)%nat -> s_mean s = Rsum (map n (seq 1 k)) / INR k /\ s_sq s = Rsum (map (fun j => n j * n j) (seq 1 k)) / INR k) /\
  s_sigma s = s_sq s - s_mean s * s_mean s.
Proof.
  induction k as [|k (I1 & I2 & I3 & I4)]; cbv zeta.
  - cbn. repeat split; auto; lia.
  - cbn [s_after]. unfold sigma_pass. cbn [s_cmean s_csq s_mean s_sq s_sigma]. rewrite I1, I2, s_after_k. cbn [nsub nmul ndiv nofZ Num_R].
    rewrite !kahan_R. cbn [fst snd]. split; [reflexivity|]. split; [reflexivity|]. split; [|reflexivity]. intros _.
    rewrite !seq_map_S, !Rsum_app. cbn [Rsum].
    rewrite n_within_R, mult_IZR, <- INR_IZR_INZ. fold (n (S k)).
    replace (IZR (Z.of_nat k + 1)) with (INR (S k)) by (rewrite INR_IZR_INZ, Nat2Z.inj_succ; f_equal; lia).
    destruct k as [|k].
    + cbn [seq map Rsum]. cbn [INR]. split; field.
    + specialize (I3 ltac:(lia)) as (J1 & J2). rewrite J1, J2. set (A := Rsum (map n _)). set (B := Rsum (map (fun j => n j * n j) _)).
      rewrite (S_INR (S k)). assert (0 < INR (S k)) by (apply lt_0_INR; lia). split; field; lra.
Qed.

Lemma var_moments (l : list R) : l <> [] -> PopVar l = Rsum (map (fun x => x * x) l) / INR (length l) - Rmean l * Rmean l.
Proof.
  intros H. unfold PopVar. assert (E : forall m, Rsum (map (fun x => (x - m) * (x - m)) l) = Rsum (map (fun x => x * x) l) - 2 * m * Rsum l + INR (length l) * (m * m)).
  { intros m. clear H. induction l as [|a l IH]; [cbn; lra|]. cbn [map length]. rewrite !Rsum_cons, IH, S_INR. lra. }
  rewrite E. rewrite Rmean_INR. field. apply not_0_INR. now destruct l.
Qed.
Lemma sigma_PopVar k : (1 <= k)%nat -> s_sigma (s_after size u L c k) = PopVar (map n (seq 1 k)).
Proof.
  intros Hk. destruct (s_after_R k) as (_ & _ & H & ->). destruct (H Hk) as (-> & ->). rewrite var_moments by (destruct k; [lia|discriminate]).
  rewrite map_map, map_length, seq_length, Rmean_INR, map_length, seq_length. reflexivity.
Qed.
Lemma sigma_0 : s_sigma (s_after size u L c 0) = 0.
Proof. cbn. rewrite mult_IZR. ring. Qed.

(** The buffer is the ring of the running values. *)
Lemma s_after_ring k : (0 < size)%Z -> s_buf (s_after size u L c k) =
  ring size (repeat 0 (Z.to_nat size)) (fun j => s_sigma (s_after size u L c (Z.to_nat j))) 0 k.
Proof.
  intros Hs. induction k as [|k IH].
  - cbn [s_after ring]. change (s_buf (sigma_init size u L (c 0%nat))) with (set_nth (repeat 0 (Z.to_nat size)) 0 (s_sigma (s_after size u L c 0))).
    rewrite sigma_0. destruct (Z.to_nat size) as [|m]; reflexivity.
  - cbn [ring]. rewrite <- IH. rewrite Z.add_0_l, Nat2Z.id.
    change (s_buf (s_after size u L c (S k))) with (set_nth (s_buf (s_after size u L c k)) (Z.to_nat ((s_k (s_after size u L c k) + 1) mod size)) (s_sigma (s_after size u L c (S k)))).
    rewrite s_after_k. do 2 f_equal. f_equal. lia.
Qed.
(** Running variance after [j] samples; 0 before the first. *)
Definition running (j : Z) : R := if (0 <? j)%Z then PopVar (map n (seq 1 (Z.to_nat j))) else 0.
Lemma s_buf_perm k : (0 < size)%Z ->
  Permutation (s_buf (s_after size u L c k)) (map (fun t => running (Z.of_nat k - Z.of_nat t)) (seq 0 (Z.to_nat size))).
Proof.
  intros Hs. rewrite (s_after_ring k Hs). etransitivity.
  - apply (ring_perm size Hs (repeat 0 (Z.to_nat size)) (repeat_length _ _) _ 0 0%Z k).
  - rewrite Z.add_0_l. erewrite map_ext; [reflexivity|]. intros t. unfold content, running.
    destruct (0 <? Z.of_nat k - Z.of_nat t)%Z eqn:E; [|now rewrite nth_repeat].
    rewrite sigma_PopVar; [reflexivity|]. apply Z.ltb_lt in E. lia.
Qed.
End SigmaR.

(** Extremes of a list and the convergence test. *)
Lemma nmax_IsMax (h : R) t : IsMax (h :: t) (nmax h t).
Proof.
  unfold nmax. assert (G : forall l a, (fold_left nmax2 l a = a \/ In (fold_left nmax2 l a) l) /\ a <= fold_left nmax2 l a /\ Forall (fun x => x <= fold_left nmax2 l a) l).
  { induction l as [|x l IH]; intros a; [cbn; split; [auto|split; [lra|constructor]]|]. cbn [fold_left]. destruct (IH (nmax2 a x)) as (I1 & I2 & I3).
    assert (M : (nmax2 a x = a \/ nmax2 a x = x) /\ a <= nmax2 a x /\ x <= nmax2 a x).
    { unfold nmax2. cbn. destruct (Rlt_dec a x); split; auto; lra. }
    destruct M as (M1 & M2 & M3). split; [|split; [lra|constructor; [lra|exact I3]]]. cbn.
    destruct I1 as [I1|I1]; [|auto]. rewrite I1. destruct M1 as [M1|M1]; rewrite M1; auto. }
  destruct (G t h) as (G1 & G2 & G3). split; [cbn; destruct G1 as [G1|G1]; [left; now symmetry|now right]|constructor; assumption].
Qed.
Lemma nmin_IsMin (h : R) t : IsMin (h :: t) (nmin h t).
Proof.
  unfold nmin. assert (G : forall l a, (fold_left nmin2 l a = a \/ In (fold_left nmin2 l a) l) /\ fold_left nmin2 l a <= a /\ Forall (fun x => fold_left nmin2 l a <= x) l).
  { induction l as [|x l IH]; intros a; [cbn; split; [auto|split; [lra|constructor]]|]. cbn [fold_left]. destruct (IH (nmin2 a x)) as (I1 & I2 & I3).
    assert (M : (nmin2 a x = a \/ nmin2 a x = x) /\ nmin2 a x <= a /\ nmin2 a x <= x).
    { unfold nmin2. cbn. destruct (Rlt_dec x a); split; auto; lra. }
    destruct M as (M1 & M2 & M3). split; [|split; [lra|constructor; [lra|exact I3]]]. cbn.
    destruct I1 as [I1|I1]; [|auto]. rewrite I1. destruct M1 as [M1|M1]; rewrite M1; auto. }
  destruct (G t h) as (G1 & G2 & G3). split; [cbn; destruct G1 as [G1|G1]; [left; now symmetry|now right]|constructor; assumption].
Qed.
Lemma spread_R (b : list R) tol : b <> [] -> spread_below b tol = true <-> forall x y, In x b -> In y b -> Rabs (x - y) < tol.
Proof.
  intros Hb. destruct b as [|h t]; [congruence|]. cbn [spread_below]. rewrite nlt_R. cbn [nabs nsub Num_R].
  destruct (nmax_IsMax h t) as (M1 & M2). destruct (nmin_IsMin h t) as (m1 & m2). split.
  - intros H x y Hx Hy. rewrite Forall_forall in M2, m2. pose proof (M2 x Hx). pose proof (M2 y Hy). pose proof (m2 x Hx). pose proof (m2 y Hy).
    assert (nmin h t <= nmax h t) by (apply M2; exact m1). rewrite Rabs_pos_eq in H by lra. apply Rabs_def1; lra.
  - intros H. apply H; assumption.
Qed.

(** Bounds on the population variance. *)
Lemma PopVar_nonneg l : 0 <= PopVar l.
Proof.
  unfold PopVar. destruct l as [|a l]; [cbn; unfold Rdiv; rewrite Rmult_0_l; lra|].
  apply Rmult_le_pos; [apply (Rsum_sq_nonneg (fun x => x - Rmean (a :: l)))|]. left. apply Rinv_0_lt_compat, lt_0_INR. cbn; lia.
Qed.
Lemma PopVar_about l m : l <> [] -> Rsum (map (fun x => (x - m) * (x - m)) l) = INR (length l) * PopVar l + INR (length l) * ((Rmean l - m) * (Rmean l - m)).
Proof.
  intros H. rewrite var_moments by exact H. assert (E : Rsum (map (fun x => (x - m) * (x - m)) l) = Rsum (map (fun x => x * x) l) - 2 * m * Rsum l + INR (length l) * (m * m)).
  { clear H. induction l as [|a l IH]; [cbn; lra|]. cbn [map length]. rewrite !Rsum_cons, IH, S_INR. lra. }
  rewrite E, Rmean_INR. field. apply not_0_INR. now destruct l.
Qed.
Lemma PopVar_bound l B : Forall (fun x => 0 <= x <= B) l -> PopVar l <= (B / 2) * (B / 2).
Proof.
  intros HB. destruct l as [|a l]; [unfold PopVar; cbn; unfold Rdiv; rewrite Rmult_0_l; pose proof (Rle_0_sqr (B * / 2)) as Q; unfold Rsqr in Q; lra|].
  set (s := a :: l) in *. assert (Hne : s <> []) by discriminate. pose proof (PopVar_about s (B / 2) Hne) as E.
  assert (U : Rsum (map (fun x => (x - B / 2) * (x - B / 2)) s) <= INR (length s) * ((B / 2) * (B / 2))).
  { clear E Hne. induction HB as [|x s' Hx _ IH]; [cbn; lra|]. cbn [map length]. rewrite Rsum_cons, S_INR. nra. }
  assert (0 < INR (length s)) by (apply lt_0_INR; cbn; lia). pose proof (Rle_0_sqr (Rmean s - B / 2)) as Q. unfold Rsqr in Q.
  assert (INR (length s) * PopVar s <= INR (length s) * (B / 2 * (B / 2))) by nra. nra.
Qed.
Lemma PopVar_zero l : l <> [] -> PopVar l = 0 <-> forall x y, In x l -> In y l -> x = y.
Proof.
  intros Hne. split.
  - intros H x y Hx Hy. unfold PopVar in H. assert (INR (length l) <> 0) by (apply not_0_INR; now destruct l).
    assert (Z : Rsum (map (fun x => (x - Rmean l) * (x - Rmean l)) l) = 0).
    { apply (Rmult_eq_compat_r (INR (length l))) in H. unfold Rdiv in H. rewrite Rmult_assoc, Rinv_l, Rmult_1_r, Rmult_0_l in H by assumption. exact H. }
    apply (Rsum_sq_zero (fun x => x - Rmean l)) in Z. rewrite Forall_forall in Z. pose proof (Z x Hx). pose proof (Z y Hy). cbn in *. lra.
  - intros H. destruct l as [|a l]; [congruence|]. set (s := a :: l) in *.
    assert (C : Forall (fun x => x = a) s) by (apply Forall_forall; intros x Hx; apply H; [exact Hx|now left]).
    unfold PopVar. rewrite (Rmean_const s a Hne C). assert (Z : Rsum (map (fun x => (x - a) * (x - a)) s) = 0).
    { clear - C. induction C as [|x s -> _ IH]; [reflexivity|]. cbn [map]. rewrite Rsum_cons, IH. ring. }
    rewrite Z. unfold Rdiv. ring.
Qed.
