(** Properties C135 and C136: the spacing laws of GOE and GUE are exact for the generated matrices of order two. *)
From Coq Require Import List ZArith Bool Arith Lia Reals Lra.
From Coquelicot Require Import Coquelicot.
From Verif Require Import Base M_Generate M_Ensemble S_Ensemble S_Normal P_Step P_Surmise.
Import ListNotations.
Local Open Scope R_scope.

(** ** Spec: the two eigenvalues [e1 <= e2] of a symmetric or Hermitian matrix of order two with diagonal [a], [d], the
    product of the two other entries being [q]. *)
Definition Eigenvalues2 (a d q e1 e2 : R) : Prop := e1 <= e2 /\ forall x, (a - x) * (d - x) - q = (x - e1) * (x - e2).

Lemma spacing_sq a d q e1 e2 : Eigenvalues2 a d q e1 e2 -> (e2 - e1) * (e2 - e1) = (a - d) * (a - d) + 4 * q /\ 0 <= e2 - e1.
Proof. intros (H1 & H2). pose proof (H2 0) as A. pose proof (H2 1) as B. split; [|lra]. assert (e1 + e2 = a + d) by lra. assert (e2 = a + d - e1) as -> by lra. nra. Qed.
Lemma le_sq_iff x y : 0 <= x -> 0 <= y -> x <= y <-> x * x <= y * y.
Proof. intros. split; intro; nra. Qed.
Lemma half_sq x : x / sqrt 2 * (x / sqrt 2) = x * x / 2.
Proof. pose proof sqrt2_pos. transitivity (x * x / (sqrt 2 * sqrt 2)); [field; lra|now rewrite sqrt2_sq]. Qed.

(** The matrices drawn: entry (i, j) of the full GOE matrix from four standard normal draws; of the tridiagonal one from two
    normal draws of standard deviation sqrt 2 and a chi-square draw with one degree of freedom, i.e. from three standard
    normal numbers; of the GUE matrix from four draws for the real and four for the imaginary parts. *)
Definition full (d0 d1 d2 d3 : R) : nat -> nat -> R := goe_matrix sqrt 2 [d0; d1; d2; d3].
Definition tri (a c z : R) : nat -> nat -> R := goe_tridiagonal sqrt [z * z] [sqrt 2 * a; sqrt 2 * c].
Definition herm (re im : list R) : (nat -> nat -> R) * (nat -> nat -> R) := (gue_re 2 re im, gue_im 2 re im).

(** C135. Four independent standard normal draws: the spacing of the two eigenvalues of the full GOE matrix is at most
    sqrt(2 pi) s with probability GOE.nnsd_cdf(s), for every s; the integral is taken over the two draws off the diagonal
    first ([d1], [d2]), then over the two on it. *)
Theorem C135_full : forall (eig : (nat -> nat -> R) -> R * R),
  (forall M, M 0%nat 1%nat = M 1%nat 0%nat -> Eigenvalues2 (M 0 0)%nat (M 1 1)%nat (M 0%nat 1%nat * M 1%nat 0%nat) (fst (eig M)) (snd (eig M))) ->
  forall s, NormalAverage 4 (fun l => match l with
    | [d1; d2; d0; d3] => let e := eig (full d0 d1 d2 d3) in indicator_le (snd e - fst e) (sqrt (2 * PI) * s)
    | _ => 0 end) (nnsd_cdf_at GOE s).
Proof.
  intros eig Heig s. pose proof sqrt2pi_pos as HP. pose proof PI_RGT_0.
  assert (forall d0 d1 d2 d3, let e := eig (full d0 d1 d2 d3) in (snd e - fst e) * (snd e - fst e) = 2 * ((d0 - d3) * (d0 - d3) + (d1 + d2) * (d1 + d2)) /\ 0 <= snd e - fst e) as HS.
  { intros d0 d1 d2 d3 e. pose proof sqrt2_pos as H2. pose proof sqrt2_sq as H22.
    destruct (spacing_sq _ _ _ _ _ (Heig (full d0 d1 d2 d3) ltac:(unfold full, goe_matrix, square; cbn; now rewrite Rplus_comm))) as (E & Hp).
    split; [|exact Hp]. fold e in E. rewrite E. unfold full, goe_matrix, square. cbn.
    replace (((d0 + d0) / sqrt 2 - (d3 + d3) / sqrt 2) * ((d0 + d0) / sqrt 2 - (d3 + d3) / sqrt 2) + 4 * ((d1 + d2) / sqrt 2 * ((d2 + d1) / sqrt 2)))
      with ((4 * ((d0 - d3) * (d0 - d3)) + 4 * ((d1 + d2) * (d1 + d2))) / (sqrt 2 * sqrt 2)) by (field; lra). rewrite H22. field. }
  unfold nnsd_cdf_at. destruct (Rlt_dec s 0) as [Hs|Hs].
  - rewrite Rmax_right by lra. replace (1 - exp (- PI / 4 * 0 * 0)) with 0 by (rewrite Rmult_0_r, exp_0; ring).
    apply navg_0. intros l Hl. destruct l as [|d1 [|d2 [|d0 [|d3 [|]]]]]; try reflexivity. cbv zeta. unfold indicator_le. destruct (Rle_dec _ _) as [G|]; [|reflexivity].
    exfalso. pose proof (proj2 (HS d0 d1 d2 d3)) as Hp. cbv zeta in Hp. nra.
  - rewrite Rmax_left by lra. set (r := sqrt (2 * PI) * s / 2). assert (0 <= r) as Hr by (unfold r; nra).
    replace (- PI / 4 * s * s) with (- (r * r) / 2).
    2:{ unfold r. replace (sqrt (2 * PI) * s / 2 * (sqrt (2 * PI) * s / 2)) with (sqrt (2 * PI) * sqrt (2 * PI) * (s * s) / 4) by field. rewrite sqrt_sqrt by lra. field. }
    refine (navg_ext 4 _ _ _ _ (navg_disk r Hr)). intros l Hl. destruct l as [|d1 [|d2 [|d0 [|d3 [|]]]]]; try discriminate. cbn [nth]. cbv zeta.
    destruct (HS d0 d1 d2 d3) as (E & Hp). cbv zeta in E, Hp. apply indicator_iff.
    rewrite (le_sq_iff _ _ Hp) by nra. rewrite E, !half_sq. replace (sqrt (2 * PI) * s * (sqrt (2 * PI) * s)) with (4 * (r * r)) by (unfold r; field). split; lra.
Qed.
Print Assumptions C135_full.
(** The tridiagonal matrix, whose spectrum is smaller by sqrt 2 (C24): the same law at the spacing sqrt(pi) s. *)
Theorem C135_tridiagonal : forall (eig : (nat -> nat -> R) -> R * R),
  (forall M, M 0%nat 1%nat = M 1%nat 0%nat -> Eigenvalues2 (M 0 0)%nat (M 1 1)%nat (M 0%nat 1%nat * M 1%nat 0%nat) (fst (eig M)) (snd (eig M))) ->
  forall s, NormalAverage 3 (fun l => match l with
    | [z; a; c] => let e := eig (tri a c z) in indicator_le (snd e - fst e) (sqrt PI * s)
    | _ => 0 end) (nnsd_cdf_at GOE s).
Proof.
  intros eig Heig s. pose proof sqrtpi_pos as HP. pose proof PI_RGT_0.
  assert (forall a c z, let e := eig (tri a c z) in (snd e - fst e) * (snd e - fst e) = (a - c) * (a - c) + 2 * (z * z) /\ 0 <= snd e - fst e) as HS.
  { intros a c z e. pose proof sqrt2_pos as H2. pose proof sqrt2_sq as H22.
    destruct (spacing_sq _ _ _ _ _ (Heig (tri a c z) eq_refl)) as (E & Hp).
    split; [|exact Hp]. fold e in E. rewrite E. unfold tri, goe_tridiagonal. cbn.
    replace (sqrt (z * z) / sqrt 2 * (sqrt (z * z) / sqrt 2)) with (sqrt (z * z) * sqrt (z * z) / (sqrt 2 * sqrt 2)) by (field; lra). rewrite H22, (sqrt_sqrt (z * z)) by nra. field. lra. }
  unfold nnsd_cdf_at. destruct (Rlt_dec s 0) as [Hs|Hs].
  - rewrite Rmax_right by lra. replace (1 - exp (- PI / 4 * 0 * 0)) with 0 by (rewrite Rmult_0_r, exp_0; ring).
    apply navg_0. intros l Hl. destruct l as [|z [|a [|c [|]]]]; try reflexivity. cbv zeta. unfold indicator_le. destruct (Rle_dec _ _) as [G|]; [|reflexivity].
    exfalso. pose proof (proj2 (HS a c z)) as Hp. cbv zeta in Hp. nra.
  - rewrite Rmax_left by lra. set (r := sqrt PI * s / sqrt 2). pose proof sqrt2_pos as H2. pose proof sqrt2_sq as H22.
    assert (0 <= r) as Hr by (unfold r; apply Rmult_le_pos; [nra|apply Rlt_le, Rinv_0_lt_compat; lra]).
    assert (r * r = PI * (s * s) / 2) as Er.
    { unfold r. rewrite half_sq. replace (sqrt PI * s * (sqrt PI * s)) with (sqrt PI * sqrt PI * (s * s)) by ring. now rewrite sqrtpi_sq. }
    replace (- PI / 4 * s * s) with (- (r * r) / 2) by (rewrite Er; field).
    refine (navg_ext 3 _ _ _ _ (navg_disk3 r Hr)). intros l Hl. destruct l as [|z [|a [|c [|]]]]; try discriminate. cbn [nth]. cbv zeta.
    destruct (HS a c z) as (E & Hp). cbv zeta in E, Hp. apply indicator_iff.
    rewrite (le_sq_iff _ _ Hp) by nra. rewrite E, !half_sq. replace (sqrt PI * s * (sqrt PI * s)) with (sqrt PI * sqrt PI * (s * s)) by ring. rewrite sqrtpi_sq, Er. split; lra.
Qed.
Print Assumptions C135_tridiagonal.

(** The eigenvalues by the quadratic formula, from the diagonal and the product of the other two entries. *)
Definition solve (a d q : R) : R * R := let w := sqrt ((a - d) * (a - d) + 4 * q) in ((a + d - w) / 2, (a + d + w) / 2).
Lemma solve_ok a d q : 0 <= q -> Eigenvalues2 a d q (fst (solve a d q)) (snd (solve a d q)).
Proof.
  intro Hq. unfold solve. cbv zeta. cbn [fst snd]. assert (0 <= (a - d) * (a - d) + 4 * q) as Hd by (pose proof (Rle_0_sqr (a - d)) as K; unfold Rsqr in K; lra).
  pose proof (sqrt_pos ((a - d) * (a - d) + 4 * q)). pose proof (sqrt_sqrt _ Hd) as Hw. set (w := sqrt ((a - d) * (a - d) + 4 * q)) in *. clearbody w.
  split; [lra|]. intro x. replace ((x - (a + d - w) / 2) * (x - (a + d + w) / 2)) with (((2 * x - a - d) * (2 * x - a - d) - w * w) / 4) by field. rewrite Hw. field.
Qed.
Definition eig2 (M : nat -> nat -> R) : R * R := solve (M 0 0)%nat (M 1 1)%nat (M 0%nat 1%nat * M 1%nat 0%nat).
Lemma eig2_ok M : M 0%nat 1%nat = M 1%nat 0%nat -> Eigenvalues2 (M 0 0)%nat (M 1 1)%nat (M 0%nat 1%nat * M 1%nat 0%nat) (fst (eig2 M)) (snd (eig2 M)).
Proof. intro H. apply solve_ok. rewrite H. pose proof (Rle_0_sqr (M 1 0)%nat) as K. exact K. Qed.
(** At the mean spacing, s = 1: probability 1 - exp(-pi/4), for both matrices; the matrix drawn from (1, 0, 0, -1) is
    diagonal with the spacing 2 sqrt 2. *)
Example C135_case :
  NormalAverage 4 (fun l => match l with
    | [d1; d2; d0; d3] => let e := eig2 (full d0 d1 d2 d3) in indicator_le (snd e - fst e) (sqrt (2 * PI) * 1) | _ => 0 end) (1 - exp (- PI / 4)) /\
  NormalAverage 3 (fun l => match l with
    | [z; a; c] => let e := eig2 (tri a c z) in indicator_le (snd e - fst e) (sqrt PI * 1) | _ => 0 end) (1 - exp (- PI / 4)) /\
  full 1 0 0 (-1) 0%nat 0%nat - full 1 0 0 (-1) 1%nat 1%nat = 2 * sqrt 2 /\ full 1 0 0 (-1) 0%nat 1%nat = 0.
Proof.
  assert (nnsd_cdf_at GOE 1 = 1 - exp (- PI / 4)) as E by (unfold nnsd_cdf_at; rewrite Rmax_left by lra; now rewrite !Rmult_1_r).
  pose proof sqrt2_pos. split; [rewrite <- E; apply (C135_full eig2 eig2_ok)|]. split; [rewrite <- E; apply (C135_tridiagonal eig2 eig2_ok)|].
  unfold full, goe_matrix, square. cbn. split; [|field; lra]. replace ((1 + 1) / sqrt 2 - (-1 + -1) / sqrt 2) with (2 * 2 / sqrt 2) by (field; lra). rewrite <- sqrt2_sq at 2. field. lra.
Qed.

(** C136. Eight independent standard normal draws: the spacing of the two eigenvalues of the GUE matrix is at most
    (4/sqrt pi) s with the probability that the density GUE.nnsd gives to [0, s]; as this density has mean one (C47),
    4/sqrt pi is the mean spacing.  The integral is taken over the imaginary draws first. *)
Theorem C136_gue : forall (eig : (nat -> nat -> R) * (nat -> nat -> R) -> R * R),
  (forall A B, A 0%nat 1%nat = A 1%nat 0%nat -> B 0%nat 1%nat = - B 1%nat 0%nat -> B 0%nat 0%nat = 0 -> B 1%nat 1%nat = 0 ->
    Eigenvalues2 (A 0 0)%nat (A 1 1)%nat (A 0%nat 1%nat * A 1%nat 0%nat - B 0%nat 1%nat * B 1%nat 0%nat) (fst (eig (A, B))) (snd (eig (A, B)))) ->
  forall s v, 0 <= s -> is_RInt (nnsd_at GUE) 0 s v ->
  NormalAverage 8 (fun l => match l with
    | [m00; m11; m01; m10; n01; n10; n00; n11] =>
        let e := eig (herm [n00; n01; n10; n11] [m00; m01; m10; m11]) in indicator_le (snd e - fst e) (4 / sqrt PI * s)
    | _ => 0 end) v.
Proof.
  intros eig Heig s v Hs Hv. pose proof sqrtpi_pos as HP. pose proof sqrtpi_sq as HPP. pose proof PI_RGT_0 as HPI. pose proof sqrt2_pos as H2. pose proof sqrt2_sq as H22.
  assert (forall n00 n01 n10 n11 m00 m01 m10 m11, let e := eig (herm [n00; n01; n10; n11] [m00; m01; m10; m11]) in
    (snd e - fst e) * (snd e - fst e) = (n00 - n11) * (n00 - n11) + (n01 + n10) * (n01 + n10) + (m01 - m10) * (m01 - m10) /\ 0 <= snd e - fst e) as HS.
  { intros n00 n01 n10 n11 m00 m01 m10 m11 e. unfold herm in e.
    set (A := gue_re 2 [n00; n01; n10; n11] [m00; m01; m10; m11]) in *. set (B := gue_im 2 [n00; n01; n10; n11] [m00; m01; m10; m11]) in *.
    assert (A 0%nat 1%nat = A 1%nat 0%nat) as G1 by (unfold A, gue_re, square; cbn; now rewrite Rplus_comm).
    assert (B 0%nat 1%nat = - B 1%nat 0%nat) as G2 by (unfold B, gue_im, square; cbn; field).
    assert (B 0%nat 0%nat = 0) as G3 by (unfold B, gue_im, square; cbn; field).
    assert (B 1%nat 1%nat = 0) as G4 by (unfold B, gue_im, square; cbn; field).
    destruct (spacing_sq _ _ _ _ _ (Heig A B G1 G2 G3 G4)) as (E & Hp).
    fold e in E, Hp. split; [|exact Hp]. rewrite E. unfold A, B, gue_re, gue_im, square. cbn. field. }
  set (k := 2 * sqrt 2 / sqrt PI). assert (0 < k) as Hk by (apply Rdiv_lt_0_compat; lra).
  assert (k * k = 8 / PI) as Ek. { unfold k. replace (2 * sqrt 2 / sqrt PI * (2 * sqrt 2 / sqrt PI)) with (4 * (sqrt 2 * sqrt 2) / (sqrt PI * sqrt PI)) by (field; lra). rewrite H22, HPP. field. lra. }
  set (F := fun s => 2 * Aint (k * s) - 2 * (k * s) * phi (k * s)).
  assert (v = F s) as ->.
  { rewrite <- (is_RInt_unique _ _ _ _ Hv). apply (is_RInt_unique (V := R_CompleteNormedModule)). replace (F s) with (F s - F 0) by (unfold F; rewrite Rmult_0_r, Aint_0; ring).
    apply (is_RInt_derive (V := R_CompleteNormedModule) F).
    - intros x _. unfold F.
      assert (is_derive (fun s => Aint (k * s)) x (k * phi (k * x))) as D1 by (apply (is_derive_comp Aint (fun s => k * s)); [apply Aint_derive|auto_derive; [exact I|ring]]).
      assert (is_derive (fun s => phi (k * s)) x (k * (- (k * x) * phi (k * x)))) as D2 by (apply (is_derive_comp phi (fun s => k * s)); [apply phi_derive|auto_derive; [exact I|ring]]).
      evar_last; [apply (is_derive_minus (V := R_NormedModule)); [apply (is_derive_scal _ _ 2 _ D1)|apply (is_derive_mult (fun s => 2 * (k * s)) (fun s => phi (k * s))); [auto_derive; [exact I|reflexivity]|exact D2|exact Rmult_comm]]|].
      unfold minus, plus, opp, mult. cbn. transitivity (2 * (k * k) * k * (x * x) * phi (k * x)); [ring|]. rewrite Ek. unfold normal_density.
      replace (- (k * x * (k * x)) / 2) with (- (4 * x * x) / PI) by (replace (k * x * (k * x)) with (k * k * (x * x)) by ring; rewrite Ek; field; lra).
      rewrite sqrt2pi_eq. unfold k. replace (2 * (8 / PI) * (2 * sqrt 2 / sqrt PI) * (x * x) * (exp (- (4 * x * x) / PI) / (sqrt 2 * sqrt PI))) with (32 / (PI * (sqrt PI * sqrt PI)) * (x * x) * exp (- (4 * x * x) / PI)) by (field; lra).
      rewrite HPP. field. lra.
    - intros x _. apply (ex_derive_continuous (V := R_NormedModule)). unfold nnsd_at. auto_derive. lra. }
  assert (0 <= k * s) as Hr by nra.
  apply (navg_ext 8 (fun l => (fun m => indicator_le ((nth 4 m 0 - nth 5 m 0) / sqrt 2 * ((nth 4 m 0 - nth 5 m 0) / sqrt 2) + (nth 2 m 0 + nth 3 m 0) / sqrt 2 * ((nth 2 m 0 + nth 3 m 0) / sqrt 2)
      + (nth 0 m 0 - nth 1 m 0) / sqrt 2 * ((nth 0 m 0 - nth 1 m 0) / sqrt 2)) (k * s * (k * s))) (skipn 2 l))).
  - intros l Hl. destruct l as [|m00 [|m11 [|m01 [|m10 [|n01 [|n10 [|n00 [|n11 [|]]]]]]]]]; try discriminate. cbn [skipn nth]. cbv zeta.
    destruct (HS n00 n01 n10 n11 m00 m01 m10 m11) as (E & Hp). cbv zeta in E, Hp. apply indicator_iff.
    assert (0 <= 4 / sqrt PI * s) as Hb by (apply Rmult_le_pos; [apply Rlt_le, Rdiv_lt_0_compat; lra|exact Hs]).
    rewrite (le_sq_iff _ _ Hp Hb), E, !half_sq. replace (k * s * (k * s)) with (k * k * (s * s)) by ring. rewrite Ek.
    replace (4 / sqrt PI * s * (4 / sqrt PI * s)) with (16 / (sqrt PI * sqrt PI) * (s * s)) by (field; lra). rewrite HPP. replace (16 / PI * (s * s)) with (2 * (8 / PI * (s * s))) by (field; lra). split; lra.
  - apply (navg_compose 2 6 _ (fun _ => F s)); [|apply navg_const]. intros l Hl. destruct l as [|p [|q [|]]]; try discriminate. cbn [app skipn]. apply (navg_ball (k * s) Hr).
Qed.
Print Assumptions C136_gue.
(** At s = 0 the probability is 0: with the quadratic formula; and the matrix drawn from real parts (1, 1, 1, -1) and
    imaginary parts (5, 1, -1, 7) has the diagonal 1, -1 and the entry 1 + i above it, hence the spacing 2 sqrt 3. *)
Example C136_case :
  NormalAverage 8 (fun l => match l with
    | [m00; m11; m01; m10; n01; n10; n00; n11] =>
        let M := herm [n00; n01; n10; n11] [m00; m01; m10; m11] in
        let e := solve (fst M 0 0)%nat (fst M 1 1)%nat (fst M 0%nat 1%nat * fst M 1%nat 0%nat - snd M 0%nat 1%nat * snd M 1%nat 0%nat) in
        indicator_le (snd e - fst e) (4 / sqrt PI * 0)
    | _ => 0 end) 0 /\
  (let M := herm [1; 1; 1; -1] [5; 1; -1; 7] in fst M 0%nat 1%nat = 1 /\ snd M 0%nat 1%nat = 1 /\ snd M 0%nat 0%nat = 0 /\
   Eigenvalues2 (fst M 0 0)%nat (fst M 1 1)%nat (fst M 0%nat 1%nat * fst M 1%nat 0%nat - snd M 0%nat 1%nat * snd M 1%nat 0%nat) (- sqrt 3) (sqrt 3)).
Proof.
  split.
  - apply (C136_gue (fun M => solve (fst M 0 0)%nat (fst M 1 1)%nat (fst M 0%nat 1%nat * fst M 1%nat 0%nat - snd M 0%nat 1%nat * snd M 1%nat 0%nat))).
    + intros A B H1 H3 _ _. cbn [fst snd]. apply solve_ok. rewrite H1, H3. pose proof (Rle_0_sqr (A 1 0)%nat) as K. pose proof (Rle_0_sqr (B 1 0)%nat) as K'. unfold Rsqr in K, K'. lra.
    + lra.
    + apply (is_RInt_point (V := R_NormedModule)).
  - unfold herm, gue_re, gue_im, square, Eigenvalues2. cbn. pose proof (sqrt_pos 3). pose proof (sqrt_sqrt 3 ltac:(lra)). splits; try lra. intro x. nra.
Qed.
