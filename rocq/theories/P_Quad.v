(** Least squares, quadrature and sampled rigidity values over exact reals. *)
From Coq Require Import List ZArith Bool Arith Lia Reals Lra.
From Coquelicot Require Import Coquelicot.
From Verif Require Import Base S_Order S_EigVals S_Trim M_Step M_Quad S_Quad P_Order P_Step P_EigVals P_TrimStat.
Import ListNotations.
Local Open Scope R_scope.
Local Notation length := List.length.

(** ** Indexing *)
Lemma at_nth (a : list R) (i : nat) z : z = Z.of_nat i -> at_ a z = nth i a 0.
Proof.
  intros ->. unfold at_. destruct (lt_dec i (length a)) as [H|H].
  - rewrite py_get_in by lia. rewrite Nat2Z.id. rewrite (nth_error_nth' a 0 H). reflexivity.
  - rewrite nth_overflow by lia. unfold py_get.
    replace (Z.of_nat i <? 0)%Z with false by (symmetry; apply Z.ltb_ge; lia).
    replace (Z.of_nat (length a) <=? Z.of_nat i)%Z with true by (symmetry; apply Z.leb_le; lia). now rewrite orb_true_r.
Qed.
Lemma nth_map_in {A B} (f : A -> B) l i d d' : (i < length l)%nat -> nth i (map f l) d = f (nth i l d').
Proof. intros H. rewrite (nth_indep _ d (f d')) by now rewrite map_length. apply map_nth. Qed.
Lemma ndiff_nth (l : list R) i : (S i < length l)%nat -> nth i (ndiff l) 0 = nth (S i) l 0 - nth i l 0.
Proof.
  revert i. induction l as [|x [|y t] IH]; intros i H; cbn in H; try lia.
  destruct i; [reflexivity|]. cbn [ndiff]. cbn [nth]. rewrite IH by (cbn; lia). reflexivity.
Qed.
Lemma Increasing_nth g i : Increasing g -> (S i < length g)%nat -> nth i g 0 < nth (S i) g 0.
Proof. intros H L. apply (H i); apply nth_error_nth'; lia. Qed.
Lemma Uniform_nth s g i : Uniform s g -> (S i < length g)%nat -> nth (S i) g 0 - nth i g 0 = s.
Proof. intros H L. apply (H i); apply nth_error_nth'; lia. Qed.
Lemma head_last_nth (g : list R) a b : head_opt g = Some a -> last_opt g = Some b -> a = nth 0 g 0 /\ b = nth (length g - 1) g 0.
Proof. intros H1 H2. split; symmetry; now apply nth_error_nth. Qed.

(** ** Trapezoidal rule *)
Lemma trap_pre (g v : list R) n : fold_left (fun acc i =>
    let w := nsub (at_ g (Z.of_nat i + 1)) (at_ g (Z.of_nat i)) in
    let h := nadd (at_ v (Z.of_nat i)) (at_ v (Z.of_nat i + 1)) in
    nadd acc (ndiv (nmul w h) (nofZ 2))) (seq 0 n) 0
  = fold_left (fun acc i => acc + (nth (S i) g 0 - nth i g 0) * (nth i v 0 + nth (S i) v 0) / 2) (seq 0 n) 0.
Proof.
  induction n as [|n IH]; [reflexivity|]. rewrite seq_S, !fold_left_app, IH. cbn [fold_left].
  rewrite (at_nth g (S n)), (at_nth g n), (at_nth v n), (at_nth v (S n)) by lia. reflexivity.
Qed.
Definition trap (g v : list R) n := fold_left (fun acc i => acc + (nth (S i) g 0 - nth i g 0) * (nth i v 0 + nth (S i) v 0) / 2) (seq 0 n) 0.
Lemma trap_S g v n : trap g v (S n) = trap g v n + (nth (S n) g 0 - nth n g 0) * (nth n v 0 + nth (S n) v 0) / 2.
Proof. unfold trap. now rewrite seq_S, fold_left_app. Qed.
Lemma integrate_fast_trap g v : integrate_fast g v = trap g v (length g - 1).
Proof. apply trap_pre. Qed.

Lemma trap_affine (a b : R) g : let P x := a * x * x / 2 + b * x in forall n, (n < length g)%nat ->
  trap g (map (fun x => a * x + b) g) n = P (nth n g 0) - P (nth 0 g 0).
Proof.
  intros P n. induction n as [|n IH]; intros H; [unfold trap; cbn; lra|].
  rewrite trap_S, IH by lia. rewrite !(nth_map_in _ g _ 0 0) by lia. unfold P. lra.
Qed.
Lemma int_affine (a b x y : R) : is_RInt (fun t => a * t + b) x y ((a * y * y / 2 + b * y) - (a * x * x / 2 + b * x)).
Proof.
  apply (is_RInt_derive (V := R_CompleteNormedModule) (fun t => a * t * t / 2 + b * t)).
  - intros t _. auto_derive; [trivial|]. field.
  - intros t _. apply continuity_pt_filterlim. reg.
Qed.
Lemma trap_exact (a b : R) g x y : head_opt g = Some x -> last_opt g = Some y ->
  is_RInt (fun t => a * t + b) x y (integrate_fast g (map (fun t => a * t + b) g)).
Proof.
  intros Hx Hy. pose proof (head_last_nth _ _ _ Hx Hy) as (-> & ->). rewrite integrate_fast_trap, trap_affine; [apply int_affine|].
  destruct g; [discriminate|cbn; lia].
Qed.

(** ** Irregular Simpson rule *)
Definition sp (g v : list R) (acc : R) (i : nat) : R :=
  let hi := nth (S i) g 0 - nth i g 0 in let hm := nth i g 0 - nth (i - 1) g 0 in
  acc + nth i v 0 * (hi*hi*hi + hm*hm*hm + 3*hi*hm*(hi+hm)) / (6*hi*hm)
      + nth (i-1) v 0 * (2*(hm*hm*hm) - hi*hi*hi + 3*hi*(hm*hm)) / (6*hm*(hi+hm))
      + nth (S i) v 0 * (2*(hi*hi*hi) - hm*hm*hm + 3*hm*(hi*hi)) / (6*hi*(hi+hm)).
Definition simp (g v : list R) n := fold_left (fun acc j => sp g v acc (2 * j + 1)) (seq 0 n) 0.
Lemma simp_S g v n : simp g v (S n) = sp g v (simp g v n) (2 * n + 1).
Proof. unfold simp. now rewrite seq_S, fold_left_app. Qed.
Lemma simps_pass_sp g v acc i : (S (S i) < length g)%nat -> simps_pass (ndiff g) v acc (Z.of_nat i + 1) = sp g v acc (S i).
Proof.
  intros H. unfold simps_pass. rewrite (at_nth (ndiff g) (S i)), (at_nth (ndiff g) i) by lia.
  rewrite (at_nth v (S i)), (at_nth v i), (at_nth v (S (S i))) by lia.
  rewrite !ndiff_nth by lia. unfold sp. replace (S i - 1)%nat with i by lia.
  cbn [nadd nsub nmul ndiv nofZ Num_R cube sq]. unfold sq, cube. cbn [nmul Num_R]. reflexivity.
Qed.
Lemma simp_pre g v n : (2 * n < length g)%nat ->
  fold_left (fun acc j => simps_pass (ndiff g) v acc (2 * Z.of_nat j + 1)%Z) (seq 0 n) n0 = simp g v n.
Proof.
  induction n as [|n IH]; intros H; [reflexivity|]. rewrite seq_S, fold_left_app, simp_S, IH by lia. cbn [fold_left]. rewrite Nat.add_0_l.
  replace (2 * Z.of_nat n + 1)%Z with (Z.of_nat (2 * n) + 1)%Z by lia. rewrite simps_pass_sp by lia. now rewrite <- Nat.add_1_r.
Qed.
(** The correction for an even number of points, [m] = index of the last point. *)
Definition corr (g v : list R) (m : nat) : R :=
  let h1 := nth m g 0 - nth (m-1) g 0 in let h2 := nth (m-1) g 0 - nth (m-2) g 0 in
  nth m v 0 * (2*(h1*h1) + 3*h2*h1) / (6*(h2+h1)) + nth (m-1) v 0 * (h1*h1 + 3*h1*h2) / (6*h2)
  - nth (m-2) v 0 * (h1*h1*h1) / (6*h2*(h2+h1)).
Lemma simpson_split g v n : (2 <= n)%nat -> length g = S n ->
  int_simps_nonunif g v = simp g v (n / 2) + (if Nat.odd n then corr g v n else 0).
Proof.
  intros Hn Hg. unfold int_simps_nonunif. rewrite Hg.
  replace (Z.of_nat (S n) - 1)%Z with (Z.of_nat n) by lia.
  replace (Z.to_nat (Z.of_nat n / 2)) with (n / 2)%nat by (rewrite <- (Nat2Z.id (n/2)), Nat2Z.inj_div; reflexivity).
  pose proof (Nat.div_mod_eq n 2) as D. assert (n mod 2 < 2)%nat by (apply Nat.mod_upper_bound; lia).
  rewrite simp_pre by lia. cbv zeta.
  assert (O : ((Z.of_nat n + 1) mod 2 =? 0)%Z = Nat.odd n).
  { rewrite <- Nat.bit0_odd. rewrite <- (Nat2Z.id n) at 2. rewrite Nat.bit0_odd.
    replace (Nat.odd (Z.to_nat (Z.of_nat n))) with (Z.odd (Z.of_nat n)).
    2:{ rewrite Nat2Z.id. clear. induction n as [|n IH]; [reflexivity|]. rewrite Nat2Z.inj_succ, Z.odd_succ, Nat.odd_succ.
        rewrite <- Z.negb_odd, <- Nat.negb_odd. now rewrite IH. }
    rewrite Zmod_even, Z.add_1_r, Z.even_succ. now destruct (Z.odd (Z.of_nat n)). }
  rewrite O. destruct (Nat.odd n); [|cbn; lra].
  rewrite (at_nth (ndiff g) (n-1)), (at_nth (ndiff g) (n-2)) by lia.
  rewrite (at_nth v n), (at_nth v (n-1)), (at_nth v (n-2)) by lia.
  rewrite !ndiff_nth by lia. replace (S (n - 1)) with n by lia. replace (S (n - 2)) with (n - 1)%nat by lia.
  unfold corr, sq, cube. cbn [nadd nsub nmul ndiv nofZ Num_R]. lra.
Qed.

Lemma sp_quadratic (a b c : R) g acc i : Increasing g -> (S (S i) < length g)%nat ->
  let P x := a * x * x * x / 3 + b * x * x / 2 + c * x in
  sp g (map (fun x => a * x * x + b * x + c) g) acc (S i) = acc + (P (nth (S (S i)) g 0) - P (nth i g 0)).
Proof.
  intros Hg H P. unfold sp. replace (S i - 1)%nat with i by lia.
  pose proof (Increasing_nth g i Hg ltac:(lia)). pose proof (Increasing_nth g (S i) Hg ltac:(lia)).
  rewrite !(nth_map_in _ g _ 0 0) by lia. unfold P.
  generalize dependent (nth (S (S i)) g 0). generalize dependent (nth (S i) g 0). generalize (nth i g 0). intros x y Hxy z Hyz. clear -Hxy Hyz.
  assert (E1 : exists h, h > 0 /\ y = x + h) by (exists (y - x); lra). destruct E1 as (h & Hh & ->).
  assert (E2 : exists k, k > 0 /\ z = x + h + k) by (exists (z - (x + h)); lra). destruct E2 as (k & Hk & ->).
  replace (x + h + k - (x + h)) with k by ring. replace (x + h - x) with h by ring. field. lra.
Qed.
Lemma simp_quadratic (a b c : R) g : Increasing g -> let P x := a * x * x * x / 3 + b * x * x / 2 + c * x in
  forall n, (2 * n < length g)%nat ->
  simp g (map (fun x => a * x * x + b * x + c) g) n = P (nth (2 * n) g 0) - P (nth 0 g 0).
Proof.
  intros Hg P n. induction n as [|n IH]; intros H; [unfold simp; cbn; lra|].
  rewrite simp_S, IH by lia. replace (2 * n + 1)%nat with (S (2 * n)) by lia. rewrite sp_quadratic by (auto; lia).
  replace (2 * S n)%nat with (S (S (2 * n))) by lia. unfold P. lra.
Qed.
Lemma corr_quadratic (a b c : R) g m : Increasing g -> (S (S m) < length g)%nat ->
  let P x := a * x * x * x / 3 + b * x * x / 2 + c * x in
  corr g (map (fun x => a * x * x + b * x + c) g) (S (S m)) = P (nth (S (S m)) g 0) - P (nth (S m) g 0).
Proof.
  intros Hg H P. unfold corr. replace (S (S m) - 1)%nat with (S m) by lia. replace (S (S m) - 2)%nat with m by lia.
  pose proof (Increasing_nth g m Hg ltac:(lia)). pose proof (Increasing_nth g (S m) Hg ltac:(lia)).
  rewrite !(nth_map_in _ g _ 0 0) by lia. unfold P.
  generalize dependent (nth (S (S m)) g 0). generalize dependent (nth (S m) g 0). generalize (nth m g 0). intros x y Hxy z Hyz. clear -Hxy Hyz.
  assert (E1 : exists h, h > 0 /\ y = x + h) by (exists (y - x); lra). destruct E1 as (h & Hh & ->).
  assert (E2 : exists k, k > 0 /\ z = x + h + k) by (exists (z - (x + h)); lra). destruct E2 as (k & Hk & ->).
  replace (x + h + k - (x + h)) with k by ring. replace (x + h - x) with h by ring. field. lra.
Qed.
Lemma int_quadratic (a b c x y : R) : is_RInt (fun t => a * t * t + b * t + c) x y
  ((a * y * y * y / 3 + b * y * y / 2 + c * y) - (a * x * x * x / 3 + b * x * x / 2 + c * x)).
Proof.
  apply (is_RInt_derive (V := R_CompleteNormedModule) (fun t => a * t * t * t / 3 + b * t * t / 2 + c * t)).
  - intros t _. auto_derive; [trivial|]. field.
  - intros t _. apply continuity_pt_filterlim. reg.
Qed.
Lemma half_cases n : (n = 2 * (n / 2) /\ Nat.odd n = false \/ n = 2 * (n / 2) + 1 /\ Nat.odd n = true)%nat.
Proof.
  pose proof (Nat.div_mod_eq n 2) as D. pose proof (Nat.mod_upper_bound n 2 ltac:(lia)). pose proof (Nat.negb_odd n) as O.
  destruct (n mod 2) as [|[|k]] eqn:E; [left|right|lia]; (split; [lia|]).
  - destruct (Nat.odd n) eqn:Q; [|reflexivity]. apply Nat.odd_spec in Q as (k & Hk). lia.
  - apply Nat.odd_spec. exists (n / 2)%nat. lia.
Qed.
Lemma simpson_exact (a b c : R) g x y : Increasing g -> (3 <= length g)%nat -> head_opt g = Some x -> last_opt g = Some y ->
  is_RInt (fun t => a * t * t + b * t + c) x y (int_simps_nonunif g (map (fun t => a * t * t + b * t + c) g)).
Proof.
  intros Hg Hl Hx Hy. pose proof (head_last_nth _ _ _ Hx Hy) as (-> & ->). set (n := (length g - 1)%nat).
  rewrite (simpson_split g _ n) by lia.
  destruct (half_cases n) as [(E & ->)|(E & ->)].
  - rewrite simp_quadratic by (auto; lia). rewrite <- E. rewrite Rplus_0_r. apply int_quadratic.
  - rewrite simp_quadratic by (auto; lia). assert (E3 : exists m, n = S (S m)) by (exists (n - 2)%nat; lia). destruct E3 as (m & E3).
    pose proof (corr_quadratic a b c g m Hg ltac:(lia)) as C. cbv zeta in C. rewrite <- E3 in C. rewrite C.
    replace (2 * (n / 2))%nat with (S m) by lia. fold n.
    match goal with |- is_RInt _ _ _ ?e => match type of (int_quadratic a b c (nth 0 g 0) (nth n g 0)) with is_RInt _ _ _ ?f =>
      replace e with f by (cbn; lra) end end. apply int_quadratic.
Qed.

(** Cubics on uniform grids with an odd number of points. *)
Lemma sp_cubic (a b c d s : R) g acc i : 0 < s -> Uniform s g -> (S (S i) < length g)%nat ->
  let P x := a*x*x*x*x/4 + b*x*x*x/3 + c*x*x/2 + d*x in
  sp g (map (fun x => a*x*x*x + b*x*x + c*x + d) g) acc (S i) = acc + (P (nth (S (S i)) g 0) - P (nth i g 0)).
Proof.
  intros Hs Hg H P. unfold sp. replace (S i - 1)%nat with i by lia.
  pose proof (Uniform_nth s g i Hg ltac:(lia)) as U1. pose proof (Uniform_nth s g (S i) Hg ltac:(lia)) as U2.
  rewrite !(nth_map_in _ g _ 0 0) by lia. unfold P. rewrite U1, U2.
  replace (nth (S (S i)) g 0) with (nth i g 0 + s + s) by lra. replace (nth (S i) g 0) with (nth i g 0 + s) by lra.
  generalize (nth i g 0). intros x. field. lra.
Qed.
Lemma simp_cubic (a b c d s : R) g : 0 < s -> Uniform s g -> let P x := a*x*x*x*x/4 + b*x*x*x/3 + c*x*x/2 + d*x in
  forall n, (2 * n < length g)%nat ->
  simp g (map (fun x => a*x*x*x + b*x*x + c*x + d) g) n = P (nth (2 * n) g 0) - P (nth 0 g 0).
Proof.
  intros Hs Hg P n. induction n as [|n IH]; intros H; [unfold simp; cbn; lra|].
  rewrite simp_S, IH by lia. replace (2 * n + 1)%nat with (S (2 * n)) by lia. rewrite (sp_cubic a b c d s) by (auto; lia).
  replace (2 * S n)%nat with (S (S (2 * n))) by lia. unfold P. lra.
Qed.
Lemma int_cubic (a b c d x y : R) : is_RInt (fun t => a*t*t*t + b*t*t + c*t + d) x y
  ((a*y*y*y*y/4 + b*y*y*y/3 + c*y*y/2 + d*y) - (a*x*x*x*x/4 + b*x*x*x/3 + c*x*x/2 + d*x)).
Proof.
  apply (is_RInt_derive (V := R_CompleteNormedModule) (fun t => a*t*t*t*t/4 + b*t*t*t/3 + c*t*t/2 + d*t)).
  - intros t _. auto_derive; [trivial|]. field.
  - intros t _. apply continuity_pt_filterlim. reg.
Qed.
Lemma simpson_exact_cubic (a b c d s : R) g x y : 0 < s -> Uniform s g -> (3 <= length g)%nat -> Nat.odd (length g) = true ->
  head_opt g = Some x -> last_opt g = Some y ->
  is_RInt (fun t => a*t*t*t + b*t*t + c*t + d) x y (int_simps_nonunif g (map (fun t => a*t*t*t + b*t*t + c*t + d) g)).
Proof.
  intros Hs Hg Hl Ho Hx Hy. pose proof (head_last_nth _ _ _ Hx Hy) as (-> & ->). set (n := (length g - 1)%nat).
  rewrite (simpson_split g _ n) by lia. assert (Nat.odd n = false) as N.
  { replace (length g) with (S n) in Ho by lia. rewrite Nat.odd_succ in Ho. rewrite <- Nat.negb_odd in Ho. now destruct (Nat.odd n). }
  rewrite N. destruct (half_cases n) as [(E & _)|(_ & E)]; [|congruence].
  rewrite (simp_cubic a b c d s) by (auto; lia). rewrite <- E, Rplus_0_r. apply int_cubic.
Qed.

(** Linearity in the values. *)
Lemma nth_lin (al be : R) u v i : length u = length v ->
  nth i (map (fun p => al * fst p + be * snd p) (combine u v)) 0 = al * nth i u 0 + be * nth i v 0.
Proof.
  revert v i. induction u as [|x u IH]; intros [|y v] i H; try discriminate; destruct i; cbn; try lra.
  apply IH. now injection H.
Qed.
Lemma trap_linear (al be : R) g u v : length u = length v ->
  integrate_fast g (map (fun p => al * fst p + be * snd p) (combine u v)) = al * integrate_fast g u + be * integrate_fast g v.
Proof.
  intros H. rewrite !integrate_fast_trap. induction (length g - 1)%nat as [|n IH]; [unfold trap; cbn; lra|].
  rewrite !trap_S, IH, !nth_lin by assumption. lra.
Qed.
Lemma simpson_linear (al be : R) g u v : length u = length v -> (3 <= length g)%nat ->
  int_simps_nonunif g (map (fun p => al * fst p + be * snd p) (combine u v)) = al * int_simps_nonunif g u + be * int_simps_nonunif g v.
Proof.
  intros H Hg. rewrite !(simpson_split g _ (length g - 1)) by lia.
  assert (S1 : forall n, simp g (map (fun p => al * fst p + be * snd p) (combine u v)) n = al * simp g u n + be * simp g v n).
  { intros n. induction n as [|n IH]; [unfold simp; cbn; lra|]. rewrite !simp_S, IH. unfold sp. rewrite !nth_lin by assumption. unfold Rdiv. ring. }
  rewrite S1. destruct (Nat.odd _); [|lra]. unfold corr. rewrite !nth_lin by assumption. unfold Rdiv. ring.
Qed.
