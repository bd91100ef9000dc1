(** Property C141: the average characteristic polynomial of the generated GOE matrices is the Hermite polynomial of their size;
    where its zeros lie. *)
From Coq Require Import List ZArith Bool Arith Lia Reals Lra.
From Coquelicot Require Import Coquelicot.
From Verif Require Import Base M_Generate M_Analytic S_Generate S_Normal S_Rotate S_CharPoly P_Generate P_Surmise P_Rotate T_Rotate P_Moments P_Det P_CharPoly.
Import ListNotations.
Local Open Scope R_scope.

(** C141. The tridiagonal generator: over the normal numbers behind its draws, and for every eigenvalue routine, the product of
    x - lambda over the eigenvalues averages to the Hermite polynomial of degree n, for every n and x. *)
Lemma tri_charpoly n z w x : length z = n -> CharPoly n (tri_draws n (z ++ w)) x = fst (cont x z (halves (chi_squares (map Z.to_nat (chi_range n)) w))).
Proof.
  intro Hz. symmetry. apply (cont_det x n); [exact Hz| | |]; unfold tri_draws; rewrite <- Hz, firstn_exact, skipn_exact, Hz.
  - intros i j Hij. rewrite tri_entry. destruct (Nat.eqb_spec i j); [lia|]. destruct (Nat.eqb_spec i (S j)); [lia|]. destruct (Nat.eqb_spec j (S i)); [lia|reflexivity].
  - intros i Hi. rewrite tri_entry, Nat.eqb_refl. rewrite (nth_map_div (Rmult (sqrt 2))) by ring. field. exact P_Generate.sqrt2_nz.
  - intros i Hi. rewrite !tri_entry. destruct (Nat.eqb_spec i (S i)); [lia|]. destruct (Nat.eqb_spec i (S (S i))); [lia|]. destruct (Nat.eqb_spec (S i) i); [lia|]. rewrite !Nat.eqb_refl.
    set (c := chi_squares _ w). transitivity ((sqrt (nth i c 0) * sqrt (nth i c 0)) / (sqrt 2 * sqrt 2)); [field; exact P_Generate.sqrt2_nz|].
    rewrite sqrt_sqrt by apply chi_nonneg. rewrite sqrt_sqrt by lra. unfold halves. symmetry. apply (nth_map_div (fun c => c / 2)). field.
Qed.
Theorem C141_tridiagonal : forall n (eig : (nat -> nat -> R) -> list R), (forall m, Symmetric n m -> Spectrum n m (eig m)) ->
  forall x, NormalAverage (n + n * (n - 1) / 2) (fun z => FromRoots (eig (tri_draws n z)) x) (Hermite (/ 2) n x).
Proof.
  intros n eig He x. apply (navg_ext _ (fun z => CharPoly n (tri_draws n z) x)).
  - intros z _. apply charpoly_spectrum, He, tri_draws_symmetric.
  - apply (navg_compose n _ _ (fun z => fst (cont x z (halves (map INR (map Z.to_nat (chi_range n))))))).
    + intros z Hz. pose proof (cont_tail_avg x z 1 0 (map Z.to_nat (chi_range n))) as H. rewrite chi_range_total in H. refine (navg_ext _ _ _ _ _ (navg_value _ _ _ _ _ H)); [|cbv zeta; ring].
      intros w _. rewrite tri_charpoly by exact Hz. cbv zeta. ring.
    + pose proof (cont_diag_avg x n 1 0 (halves (map INR (map Z.to_nat (chi_range n))))) as H. rewrite cont_hermite in H. refine (navg_ext _ _ _ _ _ (navg_value _ _ _ _ _ H)); [intros z _; cbv zeta; ring|].
      cbv zeta. unfold Hermite. ring.
Qed.
Print Assumptions C141_tridiagonal.

(** C141. The full matrix of the same kind: the same polynomial on a scale larger by sqrt 2. *)
Theorem C141_full : forall n (eig : (nat -> nat -> R) -> list R), (forall m, Symmetric n m -> Spectrum n m (eig m)) ->
  forall x, NormalAverage (n * n) (fun draws => FromRoots (eig (goe_matrix sqrt n draws)) x) (Hermite 1 n x).
Proof.
  intros n eig He x. apply (navg_ext _ (fun l => CharPoly n (goe_matrix sqrt n l) x)).
  - intros z _. apply charpoly_spectrum, He, goe_symmetric.
  - apply (proj1 (full_avg n x n) (fun i => i)). split; auto.
Qed.
Print Assumptions C141_full.
Theorem C141_scale : forall c v n x, Hermite (c * c * v) n (c * x) = c ^ n * Hermite v n x.
Proof.
  intros c v n x. unfold Hermite. assert (HermitePair (c * c * v) n (c * x) = (c ^ n * fst (HermitePair v n x), c ^ (n - 1) * snd (HermitePair v n x))) as E; [|now rewrite E].
  induction n as [|n IH]; [cbn; f_equal; ring|]. cbn [HermitePair]. rewrite IH. destruct n as [|n]; [cbn; f_equal; ring|].
  destruct (HermitePair v (S n) x) as [p q]. cbn [fst snd]. replace (S n - 1)%nat with n by lia. replace (S (S n) - 1)%nat with (S n) by lia. f_equal. cbn [pow]. ring.
Qed.
Print Assumptions C141_scale.

(** C141. The zeros of the tridiagonal polynomial are strictly inside the band of unfold_goe, where its density is positive. *)
Lemma hermite_outside v n x : 0 < v -> 0 < x -> 4 * v * INR (n - 1) <= x * x -> 0 < Hermite v n x /\ ((0 < n)%nat -> x * snd (HermitePair v n x) <= 2 * Hermite v n x).
Proof.
  intros Hv Hx H. revert H. induction n as [|n IH]; intro H; [cbn; split; [lra|lia]|]. replace (S n - 1)%nat with n in H by lia.
  assert (4 * v * INR (n - 1) <= x * x) as H'.
  { eapply Rle_trans; [|exact H]. apply Rmult_le_compat_l; [lra|]. apply le_INR. lia. }
  specialize (IH H'). unfold Hermite in *. cbn [HermitePair]. destruct (HermitePair v n x) as [p q] eqn:E. cbn [fst snd] in *. destruct IH as [I1 I2].
  assert (x * p <= 2 * (x * p - v * INR n * q)) as K.
  { destruct n as [|n]; [injection E as <- <-; cbn; lra|]. specialize (I2 ltac:(lia)). assert (0 < INR (S n)) as Hn by (apply lt_0_INR; lia).
    apply Rmult_le_reg_l with x; [exact Hx|].
    assert (0 < v * INR (S n)) as Hvn by (apply Rmult_lt_0_compat; lra).
    assert (v * INR (S n) * (x * q) <= v * INR (S n) * (2 * p)) by (apply Rmult_le_compat_l; lra).
    assert (4 * v * INR (S n) * p <= x * x * p) by (apply Rmult_le_compat_r; lra). lra. }
  split; [|intros _; exact K]. assert (0 < x * p) by (apply Rmult_lt_0_compat; lra). lra.
Qed.
Lemma hermite_parity v n x : Hermite v n (- x) = (-1) ^ n * Hermite v n x.
Proof. pose proof (C141_scale (-1) v n x) as H. replace (-1 * -1 * v) with v in H by ring. replace (-1 * x) with (- x) in H by ring. exact H. Qed.
Theorem C141_zeros : forall v n x, 0 < v -> Hermite v n x = 0 -> x * x <= 4 * v * (INR n - 1).
Proof.
  intros v n x Hv H. destruct n as [|n]; [unfold Hermite in H; cbn in H; lra|]. replace (INR (S n) - 1) with (INR n) by (rewrite S_INR; ring).
  destruct (Rle_lt_dec (x * x) (4 * v * INR n)) as [G|G]; [exact G|exfalso]. assert (0 <= 4 * v * INR n) as P by (repeat apply Rmult_le_pos; try lra; apply pos_INR).
  destruct (Rtotal_order x 0) as [L|[->|L]]; [|lra|].
  - pose proof (hermite_outside v (S n) (- x) Hv ltac:(lra)) as K. replace (S n - 1)%nat with n in K by lia. destruct K as [K _]; [lra|]. rewrite hermite_parity, H in K. lra.
  - pose proof (hermite_outside v (S n) x Hv L) as K. replace (S n - 1)%nat with n in K by lia. destruct K as [K _]; [lra|]. lra.
Qed.
Print Assumptions C141_zeros.
Theorem C141_band : forall n x, (0 < n)%nat -> Hermite (/ 2) n x = 0 -> - sqrt (2 * INR n) < x < sqrt (2 * INR n) /\ 0 < goe_R1 n x.
Proof.
  intros n x Hn H. apply C141_zeros in H; [|lra]. assert (0 < INR n) as Hp by now apply lt_0_INR. assert (x * x < 2 * INR n) as K by lra.
  assert (Rabs x < sqrt (2 * INR n)) as A by (rewrite <- sqrt_Rsqr_abs; apply sqrt_lt_1; unfold Rsqr; [apply Rle_0_sqr|lra|lra]). apply Rabs_def2 in A. split; [lra|].
  unfold goe_R1. destruct (Rlt_dec (Rabs x) (sqrt (2 * INR n))) as [_|F]; [|exfalso; apply F, Rabs_def1; lra].
  apply Rmult_lt_0_compat; [apply Rdiv_lt_0_compat; [lra|apply PI_RGT_0]|]. apply sqrt_lt_R0. lra.
Qed.
Print Assumptions C141_band.
(** FALSE for the full matrix: that of order seven has a zero beyond the band, where the density is zero and the unfolding flat. *)
Theorem C141_full_refuted : exists x, Hermite 1 7 x = 0 /\ sqrt (2 * INR 7) < x /\ goe_R1 7 x = 0 /\ smooth_goe 7 x = smooth_goe 7 (sqrt (2 * INR 7)).
Proof.
  assert (forall x, Hermite 1 7 x = x * (x * x * (x * x) * (x * x) - 21 * (x * x * (x * x)) + 105 * (x * x) - 105)) as E by (intro x; unfold Hermite; cbn; ring).
  replace (2 * INR 7) with 14 by (cbn; ring). assert (sqrt 14 * sqrt 14 = 14) as H14 by (apply sqrt_sqrt; lra). assert (0 < sqrt 14) as Hp by (apply sqrt_lt_R0; lra).
  assert (sqrt 14 < 4) as Hl by (replace 4 with (sqrt (4 * 4)) by (apply sqrt_square; lra); apply sqrt_lt_1; lra).
  assert (Hermite 1 7 (sqrt 14) < 0) as Hn by (rewrite E, H14; lra). assert (0 < Hermite 1 7 4) as Hpos by (rewrite E; lra).
  destruct (IVT (Hermite 1 7) (sqrt 14) 4) as (x & [Hx _] & Hz); [|exact Hl|exact Hn|exact Hpos|].
  - intro x. apply continuity_pt_filterlim. apply (continuous_ext (fun x => x * (x * x * (x * x) * (x * x) - 21 * (x * x * (x * x)) + 105 * (x * x) - 105))); [intro; symmetry; apply E|].
    apply (ex_derive_continuous (V := R_NormedModule)). auto_derive. exact I.
  - exists x. assert (sqrt 14 < x) as Hlt by (destruct Hx as [Hx|Hx]; [exact Hx|subst x; lra]). split; [exact Hz|]. split; [exact Hlt|]. split.
    + unfold goe_R1. replace (2 * INR 7) with 14 by (cbn; ring). destruct (Rlt_dec (Rabs x) (sqrt 14)) as [F|_]; [|reflexivity]. rewrite Rabs_pos_eq in F by lra. lra.
    + unfold smooth_goe. replace (2 * INR 7) with 14 by (cbn; ring). destruct (Rlt_dec (sqrt 14) x) as [_|F]; [|contradiction]. destruct (Rlt_dec (sqrt 14) (sqrt 14)); [lra|reflexivity].
Qed.
Print Assumptions C141_full_refuted.

(** The hypothesis is met by the routine of C139 for order two: on average (x - l1)(x - l2) is x^2 - 1/2 for the tridiagonal
    matrix and x^2 - 1 for the full one; the zeros of the first are inside the band [-2, 2]. *)
Example C141_ex : NormalAverage 3 (fun z => FromRoots (ex_eig (tri_draws 2 z)) 3) (17 / 2) /\
  NormalAverage 4 (fun draws => FromRoots (ex_eig (goe_matrix sqrt 2 draws)) 3) 8 /\ Hermite (/ 2) 2 (sqrt (/ 2)) = 0 /\ 0 < goe_R1 2 (sqrt (/ 2)).
Proof.
  assert (Hermite (/ 2) 2 (sqrt (/ 2)) = 0) as H by (unfold Hermite; cbn; rewrite !Rmult_0_r, Rmult_1_r, Rminus_0_r, sqrt_sqrt by lra; lra).
  split; [|split; [|split]].
  - apply (navg_value _ _ (Hermite (/ 2) 2 3)); [unfold Hermite; cbn; field|]. exact (C141_tridiagonal 2 ex_eig ex_eig_ok 3).
  - apply (navg_value _ _ (Hermite 1 2 3)); [unfold Hermite; cbn; ring|]. exact (C141_full 2 ex_eig ex_eig_ok 3).
  - exact H.
  - apply (C141_band 2 _ ltac:(lia) H).
Qed.
