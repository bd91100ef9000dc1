(** Moments of linear forms in independent standard normal numbers, and of sample covariances. *)
From Coq Require Import List Arith Lia Reals Lra.
From Coquelicot Require Import Coquelicot.
From Verif Require Import S_Generate S_Normal S_Cov P_Generate P_Surmise P_Rotate T_Rotate P_Moments.
Import ListNotations.
Local Open Scope R_scope.

Definition lin (k : nat) (u : nat -> R) (l : list R) : R := SumTo k (fun p => u p * nth p l 0).
Definition dot (k : nat) (u v : nat -> R) : R := SumTo k (fun p => u p * v p).
Definition rest (u : nat -> R) : nat -> R := fun p => u (S p).
Lemma lin_cons k u x l : lin (S k) u (x :: l) = u O * x + lin k (rest u) l.
Proof. unfold lin. rewrite SumTo_shift. reflexivity. Qed.
Lemma dot_cons k u v : dot (S k) u v = u O * v O + dot k (rest u) (rest v).
Proof. unfold dot. rewrite SumTo_shift. reflexivity. Qed.

(** Weighted sums of averages. *)
Lemma navg_terms k (ts : list (R * (list R -> R) * R)) : (forall c f v, In (c, f, v) ts -> NormalAverage k f v) ->
  NormalAverage k (fun l => fold_right (fun t s => fst (fst t) * snd (fst t) l + s) 0 ts) (fold_right (fun t s => fst (fst t) * snd t + s) 0 ts).
Proof.
  induction ts as [|[[c f] v] ts IH]; intro H; cbn [fold_right fst snd]; [apply navg_const|].
  pose proof (navg_lin k _ _ _ _ c 1 (H c f v (or_introl eq_refl)) (IH (fun c f v K => H c f v (or_intror K)))) as G.
  refine (navg_ext _ _ _ _ _ (navg_value _ _ _ _ _ G)); [intros l _; cbv beta; ring|ring].
Qed.
Lemma whole_terms (ts : list (R * nat)) : WholeLine (fun x => phi x * fold_right (fun t s => fst t * x ^ snd t + s) 0 ts) (fold_right (fun t s => fst t * moment (snd t) + s) 0 ts).
Proof.
  induction ts as [|[c n] ts IH]; cbn [fold_right fst snd]; [apply (phi_times 0)|].
  pose proof (whole_lin _ _ _ _ c 1 (moments n) IH) as H. rewrite Rmult_1_l in H. revert H. apply whole_ext. intro x. cbv beta. ring.
Qed.
Lemma wick1 k : forall u, NormalAverage k (lin k u) 0.
Proof.
  intro u. apply (navg_value _ _ (SumTo k (fun p => u p * 0))); [rewrite SumTo_0; [reflexivity|intros; ring]|].
  apply (navg_SumTo k k (fun p l => u p * nth p l 0)). intros p Hp. apply navg_scale, navg_coord, Hp.
Qed.
Lemma wick2 k : forall u v, NormalAverage k (fun l => lin k u l * lin k v l) (dot k u v).
Proof.
  induction k as [|k IH]; intros u v; [cbn; ring|].
  apply (navg_first k _ (fun x => u O * v O * x ^ 2 + dot k (rest u) (rest v))).
  - intro x. pose proof (navg_terms k [(u O * v O * x ^ 2, fun _ => 1, 1); (u O * x, lin k (rest v), 0); (v O * x, lin k (rest u), 0);
      (1, fun l => lin k (rest u) l * lin k (rest v) l, dot k (rest u) (rest v))]) as H.
    refine (navg_ext _ _ _ _ _ (navg_value _ _ _ _ _ (H _))).
    + intros l _. cbn [fold_right fst snd]. rewrite !lin_cons. ring.
    + cbn [fold_right fst snd]. ring.
    + intros c f w K. cbn [In] in K. repeat (destruct K as [K|K]; [injection K as <- <- <-; first [exact (navg_const k 1) | apply wick1 | apply IH]|]). contradiction.
  - pose proof (whole_terms [(u O * v O, 2%nat); (dot k (rest u) (rest v), O)]) as H. cbn [fold_right fst snd] in H.
    match type of H with WholeLine _ ?w => replace (dot (S k) u v) with w by (rewrite dot_cons; cbn; ring) end. revert H. apply whole_ext. intro x. cbn [pow]. ring.
Qed.
Lemma wick3 k : forall u v w, NormalAverage k (fun l => lin k u l * lin k v l * lin k w l) 0.
Proof.
  induction k as [|k IH]; intros u v w; [cbn; ring|]. set (u' := rest u). set (v' := rest v). set (w' := rest w).
  apply (navg_first k _ (fun x => u O * v O * w O * x ^ 3 + (u O * dot k v' w' + v O * dot k u' w' + w O * dot k u' v') * x ^ 1)).
  - intro x. pose proof (navg_terms k [(u O * v O * w O * x ^ 3, fun _ => 1, 1); (v O * w O * x ^ 2, lin k u', 0); (u O * w O * x ^ 2, lin k v', 0); (u O * v O * x ^ 2, lin k w', 0);
      (u O * x, fun l => lin k v' l * lin k w' l, dot k v' w'); (v O * x, fun l => lin k u' l * lin k w' l, dot k u' w'); (w O * x, fun l => lin k u' l * lin k v' l, dot k u' v');
      (1, fun l => lin k u' l * lin k v' l * lin k w' l, 0)]) as H.
    refine (navg_ext _ _ _ _ _ (navg_value _ _ _ _ _ (H _))).
    + intros l _. cbn [fold_right fst snd]. rewrite !lin_cons. fold u' v' w'. ring.
    + cbn [fold_right fst snd]. ring.
    + intros c f z K. cbn [In] in K. repeat (destruct K as [K|K]; [injection K as <- <- <-; first [exact (navg_const k 1) | apply wick1 | apply wick2 | apply IH]|]). contradiction.
  - pose proof (whole_terms [(u O * v O * w O, 3%nat); (u O * dot k v' w' + v O * dot k u' w' + w O * dot k u' v', 1%nat)]) as H. cbn [fold_right fst snd] in H.
    match type of H with WholeLine _ ?w => replace 0 with w at 1 by (cbn; ring) end. revert H. apply whole_ext. intro x. cbn [pow]. ring.
Qed.
(** The average of a product of four linear forms: the sum over the three ways of pairing them. *)
Lemma wick4 k : forall u v w z, NormalAverage k (fun l => lin k u l * lin k v l * lin k w l * lin k z l)
  (dot k u v * dot k w z + dot k u w * dot k v z + dot k u z * dot k v w).
Proof.
  induction k as [|k IH]; intros u v w z; [cbn; ring|]. set (u' := rest u). set (v' := rest v). set (w' := rest w). set (z' := rest z).
  set (a := u O). set (b := v O). set (c := w O). set (d := z O).
  set (q := a * b * dot k w' z' + a * c * dot k v' z' + a * d * dot k v' w' + b * c * dot k u' z' + b * d * dot k u' w' + c * d * dot k u' v').
  set (r := dot k u' v' * dot k w' z' + dot k u' w' * dot k v' z' + dot k u' z' * dot k v' w').
  apply (navg_first k _ (fun x => a * b * c * d * x ^ 4 + q * x ^ 2 + r)).
  - intro x. pose proof (navg_terms k [(a * b * c * d * x ^ 4, fun _ => 1, 1);
      (b * c * d * x ^ 3, lin k u', 0); (a * c * d * x ^ 3, lin k v', 0); (a * b * d * x ^ 3, lin k w', 0); (a * b * c * x ^ 3, lin k z', 0);
      (a * b * x ^ 2, fun l => lin k w' l * lin k z' l, dot k w' z'); (a * c * x ^ 2, fun l => lin k v' l * lin k z' l, dot k v' z'); (a * d * x ^ 2, fun l => lin k v' l * lin k w' l, dot k v' w');
      (b * c * x ^ 2, fun l => lin k u' l * lin k z' l, dot k u' z'); (b * d * x ^ 2, fun l => lin k u' l * lin k w' l, dot k u' w'); (c * d * x ^ 2, fun l => lin k u' l * lin k v' l, dot k u' v');
      (a * x, fun l => lin k v' l * lin k w' l * lin k z' l, 0); (b * x, fun l => lin k u' l * lin k w' l * lin k z' l, 0);
      (c * x, fun l => lin k u' l * lin k v' l * lin k z' l, 0); (d * x, fun l => lin k u' l * lin k v' l * lin k w' l, 0);
      (1, fun l => lin k u' l * lin k v' l * lin k w' l * lin k z' l, r)]) as H.
    refine (navg_ext _ _ _ _ _ (navg_value _ _ _ _ _ (H _))).
    + intros l _. cbn [fold_right fst snd]. rewrite !lin_cons. fold u' v' w' z' a b c d. ring.
    + cbn [fold_right fst snd]. unfold q. ring.
    + intros e f g K. cbn [In] in K. repeat (destruct K as [K|K]; [injection K as <- <- <-; first [exact (navg_const k 1) | apply wick1 | apply wick2 | apply wick3 | apply IH]|]). contradiction.
  - pose proof (whole_terms [(a * b * c * d, 4%nat); (q, 2%nat); (r, O)]) as H. cbn [fold_right fst snd] in H.
    match goal with |- WholeLine _ ?v => match type of H with WholeLine _ ?w => replace v with w end end.
    + revert H. apply whole_ext. intro x. cbn [pow]. ring.
    + rewrite !dot_cons. fold u' v' w' z' a b c d. unfold q, r. cbn. ring.
Qed.

(** ** Deviations from the mean of independent normal data *)
Lemma Sum_SumTo f n : Sum f n = SumTo n f.
Proof. induction n as [|n IH]; [reflexivity|]. cbn. now rewrite IH. Qed.
Definition kron (a b : nat) : R := if Nat.eqb a b then 1 else 0.
Definition data_at (t : nat) (z : list R) (i k : nat) : R := nth (i * t + k) z 0.
Definition coef (t i k p : nat) : R := if Nat.eqb (p / t) i then kron (p mod t) k - / INR t else 0.
Lemma place_row i j t : (j < t)%nat -> ((i * t + j) / t = i /\ (i * t + j) mod t = j)%nat.
Proof. intros. split; [rewrite Nat.div_add_l, Nat.div_small by lia; lia|]. rewrite Nat.add_comm, Nat.mod_add, Nat.mod_small by lia. reflexivity. Qed.
Lemma dev_lin n t z i k : (i < n)%nat -> (k < t)%nat -> Dev (data_at t z) t i k = lin (n * t) (coef t i k) z.
Proof.
  intros Hi Hk. unfold lin. rewrite SumTo_rows.
  rewrite (SumTo_ext n _ (fun a => if Nat.eqb a i then SumTo t (fun b => (kron b k - / INR t) * nth (a * t + b) z 0) else 0)).
  - rewrite (SumTo_delta n i (fun a => SumTo t (fun b => (kron b k - / INR t) * nth (a * t + b) z 0))) by exact Hi.
    rewrite (SumTo_ext t _ (fun b => (if Nat.eqb b k then data_at t z i b else 0) + (- / INR t) * data_at t z i b)).
    + rewrite SumTo_add, SumTo_delta, SumTo_scale by exact Hk. unfold Dev, Mean. rewrite Sum_SumTo. unfold Rdiv. ring.
    + intros b _. unfold kron, data_at. destruct (Nat.eqb b k); ring.
  - intros a _. destruct (Nat.eqb_spec a i) as [->|N].
    + apply SumTo_ext. intros b Hb. unfold coef. destruct (place_row i b t Hb) as [-> ->]. rewrite Nat.eqb_refl. reflexivity.
    + apply SumTo_0. intros b Hb. unfold coef. destruct (place_row a b t Hb) as [-> _]. destruct (Nat.eqb_spec a i); [contradiction|ring].
Qed.
Definition centre (t k l : nat) : R := kron k l - / INR t.
Lemma kron_sum t k : (k < t)%nat -> SumTo t (fun b => kron b k) = 1.
Proof. intro Hk. exact (SumTo_delta t k (fun _ => 1) Hk). Qed.
Lemma centre_product t k l : (k < t)%nat -> (l < t)%nat -> SumTo t (fun b => centre t b k * centre t b l) = centre t k l.
Proof.
  intros Hk Hl. assert (INR t <> 0) as Ht by (apply not_0_INR; lia).
  rewrite (SumTo_ext t _ (fun b => (if Nat.eqb b k then centre t b l else 0) + (- / INR t) * centre t b l)) by (intros b _; unfold centre at 1; unfold kron; destruct (Nat.eqb b k); ring).
  rewrite SumTo_add, SumTo_delta, SumTo_scale by exact Hk.
  assert (SumTo t (fun b => centre t b l) = 0) as ->; [|ring]. unfold centre.
  rewrite (SumTo_ext t _ (fun b => kron b l + - / INR t)) by (intros; ring). rewrite SumTo_add, kron_sum, SumTo_const by exact Hl. field. exact Ht.
Qed.
Lemma coef_dot n t i j k l : (i < n)%nat -> (j < n)%nat -> (k < t)%nat -> (l < t)%nat -> dot (n * t) (coef t i k) (coef t j l) = kron i j * centre t k l.
Proof.
  intros Hi Hj Hk Hl. unfold dot. rewrite SumTo_rows. rewrite (SumTo_ext n _ (fun a => if Nat.eqb a i then kron a j * centre t k l else 0)).
  - rewrite (SumTo_delta n i (fun a => kron a j * centre t k l)) by exact Hi. reflexivity.
  - intros a _. destruct (Nat.eqb_spec a i) as [->|N].
    + rewrite <- (centre_product t k l Hk Hl), <- SumTo_scale. apply SumTo_ext. intros b Hb. unfold coef. destruct (place_row i b t Hb) as [-> ->]. rewrite Nat.eqb_refl. unfold kron at 2.
      unfold centre, kron. destruct (Nat.eqb i j); ring.
    + apply SumTo_0. intros b Hb. unfold coef at 1. destruct (place_row a b t Hb) as [-> _]. destruct (Nat.eqb_spec a i); [contradiction|ring].
Qed.
Lemma centre_trace t : (0 < t)%nat -> SumTo t (fun k => centre t k k) = INR t - 1.
Proof.
  intro Ht. rewrite (SumTo_ext t _ (fun _ => 1 - / INR t)) by (intros; unfold centre, kron; now rewrite Nat.eqb_refl). rewrite SumTo_const. field. now apply not_0_INR, Nat.neq_0_lt_0.
Qed.
Lemma centre_squares t : (0 < t)%nat -> SumTo t (fun k => SumTo t (fun l => centre t k l * centre t k l)) = INR t - 1.
Proof.
  intro Ht. rewrite SumTo_swap. rewrite <- (centre_trace t Ht). apply SumTo_ext. intros l Hl. now apply centre_product.
Qed.
Lemma SumTo_product n f m g : SumTo n f * SumTo m g = SumTo n (fun i => SumTo m (fun j => f i * g j)).
Proof. rewrite Rmult_comm, <- SumTo_scale. apply SumTo_ext. intros i _. rewrite SumTo_scale. ring. Qed.

Lemma kron_sums n : SumTo n (fun i => SumTo n (fun j => kron i j * kron i j)) = INR n.
Proof.
  rewrite (SumTo_ext n _ (fun _ => 1)); [rewrite SumTo_const; ring|]. intros i Hi. rewrite <- (SumTo_delta n i (fun _ => 1) Hi). apply SumTo_ext. intros j _. unfold kron. rewrite (Nat.eqb_sym i j).
  destruct (Nat.eqb j i); ring.
Qed.
Definition gram (n t : nat) (z : list R) : R :=
  SumTo n (fun i => SumTo n (fun j => SumTo t (fun k => SumTo t (fun l => Dev (data_at t z) t i k * Dev (data_at t z) t j k * Dev (data_at t z) t i l * Dev (data_at t z) t j l)))).
Lemma gram_avg n t : (0 < t)%nat -> NormalAverage (n * t) (gram n t) (INR n * ((INR t - 1) * (INR t - 1)) + INR n * (INR n + 1) * (INR t - 1)).
Proof.
  intro Ht.
  apply (navg_value _ _ (SumTo n (fun i => SumTo n (fun j => SumTo t (fun k => SumTo t (fun l =>
     kron i j * kron i j * (centre t k k * centre t l l) + centre t k l * centre t k l + kron i j * kron i j * (centre t k l * centre t k l))))))).
  - transitivity (SumTo n (fun i => SumTo n (fun j => kron i j * kron i j * ((INR t - 1) * (INR t - 1) + (INR t - 1)) + (INR t - 1)))).
    + apply SumTo_ext. intros i _. apply SumTo_ext. intros j _. set (d := kron i j * kron i j).
      transitivity (SumTo t (fun k => SumTo t (fun l => d * (centre t k k * centre t l l)) + SumTo t (fun l => (1 + d) * (centre t k l * centre t k l)))).
      { apply SumTo_ext. intros k _. rewrite <- SumTo_add. apply SumTo_ext. intros l _. ring. }
      rewrite SumTo_add. rewrite (SumTo_ext t _ (fun k => (d * (INR t - 1)) * centre t k k)).
      * rewrite SumTo_scale, centre_trace by exact Ht. rewrite (SumTo_ext t (fun k => SumTo t (fun l => (1 + d) * _)) (fun k => (1 + d) * SumTo t (fun l => centre t k l * centre t k l))) by (intros; now rewrite SumTo_scale).
        rewrite SumTo_scale, centre_squares by exact Ht. ring.
      * intros k _. rewrite (SumTo_ext t _ (fun l => (d * centre t k k) * centre t l l)) by (intros; ring). rewrite SumTo_scale, centre_trace by exact Ht. ring.
    + set (c := (INR t - 1) * (INR t - 1) + (INR t - 1)). rewrite (SumTo_ext n _ (fun i => c * SumTo n (fun j => kron i j * kron i j) + INR n * (INR t - 1))).
      * rewrite SumTo_add, SumTo_scale, kron_sums, SumTo_const. unfold c. ring.
      * intros i _. rewrite SumTo_add, SumTo_const, <- SumTo_scale. f_equal. apply SumTo_ext. intros. ring.
  - unfold gram. apply (navg_SumTo (n * t) n (fun i z => SumTo n (fun j => SumTo t (fun k => SumTo t (fun l => Dev (data_at t z) t i k * Dev (data_at t z) t j k * Dev (data_at t z) t i l * Dev (data_at t z) t j l))))).
    intros i Hi. apply (navg_SumTo (n * t) n (fun j z => SumTo t (fun k => SumTo t (fun l => Dev (data_at t z) t i k * Dev (data_at t z) t j k * Dev (data_at t z) t i l * Dev (data_at t z) t j l)))).
    intros j Hj. apply (navg_SumTo (n * t) t (fun k z => SumTo t (fun l => Dev (data_at t z) t i k * Dev (data_at t z) t j k * Dev (data_at t z) t i l * Dev (data_at t z) t j l))).
    intros k Hk. apply (navg_SumTo (n * t) t (fun l z => Dev (data_at t z) t i k * Dev (data_at t z) t j k * Dev (data_at t z) t i l * Dev (data_at t z) t j l)).
    intros l Hl. refine (navg_ext _ _ _ _ _ (navg_value _ _ _ _ _ (wick4 (n * t) (coef t i k) (coef t j k) (coef t i l) (coef t j l)))).
    + intros z _. rewrite (dev_lin n t z i k), (dev_lin n t z j k), (dev_lin n t z i l), (dev_lin n t z j l) by assumption. reflexivity.
    + rewrite !(coef_dot n t) by assumption. assert (forall m, kron m m = 1) as K by (intro m; unfold kron; now rewrite Nat.eqb_refl). rewrite !K.
      replace (kron j i) with (kron i j) by (unfold kron; now rewrite Nat.eqb_sym). replace (centre t l k) with (centre t k l) by (unfold centre, kron; now rewrite Nat.eqb_sym). ring.
Qed.
Definition gram1 (n t : nat) (z : list R) : R := SumTo n (fun i => SumTo t (fun k => Dev (data_at t z) t i k * Dev (data_at t z) t i k)).
Lemma gram1_avg n t : (0 < t)%nat -> NormalAverage (n * t) (gram1 n t) (INR n * (INR t - 1)).
Proof.
  intro Ht. apply (navg_value _ _ (SumTo n (fun i => SumTo t (fun k => centre t k k)))); [rewrite centre_trace by exact Ht; apply SumTo_const|].
  apply (navg_SumTo (n * t) n (fun i z => SumTo t (fun k => Dev (data_at t z) t i k * Dev (data_at t z) t i k))). intros i Hi.
  apply (navg_SumTo (n * t) t (fun k z => Dev (data_at t z) t i k * Dev (data_at t z) t i k)). intros k Hk.
  refine (navg_ext _ _ _ _ _ (navg_value _ _ _ _ _ (wick2 (n * t) (coef t i k) (coef t i k)))).
  - intros z _. now rewrite (dev_lin n t z i k) by assumption.
  - rewrite (coef_dot n t) by assumption. unfold kron at 1. rewrite Nat.eqb_refl. ring.
Qed.
