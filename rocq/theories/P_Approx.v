(** One-sided approximation of step functions by polynomials on the whole line, for a law on [-2, 2]. *)
From Coq Require Import List ZArith Bool Arith Lia Reals Lra.
From Coquelicot Require Import Coquelicot.
From Verif Require Import S_Law.
Import ListNotations.
Local Open Scope R_scope.

(** ** Polynomials of one variable *)
Definition peval (cs : list R) (x : R) : R := fold_right (fun c s => c + x * s) 0 cs.
Definition IsPoly (f : R -> R) : Prop := exists cs, forall x, f x = peval cs x.
Lemma ispoly_ext f g : (forall x, f x = g x) -> IsPoly f -> IsPoly g.
Proof. intros E (cs & H). exists cs. intro x. now rewrite <- E. Qed.
Lemma ispoly_const c : IsPoly (fun _ => c).
Proof. exists [c]. intro x. cbn. ring. Qed.
Lemma ispoly_id : IsPoly (fun x => x).
Proof. exists [0; 1]. intro x. cbn. ring. Qed.
Fixpoint padd (p q : list R) : list R := match p, q with [], _ => q | _, [] => p | a :: p', b :: q' => (a + b) :: padd p' q' end.
Lemma padd_eval p : forall q x, peval (padd p q) x = peval p x + peval q x.
Proof. induction p as [|a p IH]; intros [|b q] x; cbn; try ring. fold (peval (padd p q) x). rewrite IH. unfold peval. ring. Qed.
Lemma ispoly_add f g : IsPoly f -> IsPoly g -> IsPoly (fun x => f x + g x).
Proof. intros (p & P) (q & Q). exists (padd p q). intro x. now rewrite padd_eval, P, Q. Qed.
Lemma ispoly_scale c f : IsPoly f -> IsPoly (fun x => c * f x).
Proof. intros (p & P). exists (map (Rmult c) p). intro x. rewrite P. clear P. induction p as [|a p IH]; cbn; [ring|]. fold (peval (map (Rmult c) p) x). rewrite <- IH. unfold peval. ring. Qed.
Lemma ispoly_mul f g : IsPoly f -> IsPoly g -> IsPoly (fun x => f x * g x).
Proof.
  intros (p & P) Hg. apply (ispoly_ext (fun x => peval p x * g x)); [intro; now rewrite P|]. clear P f. induction p as [|a p IH].
  - apply (ispoly_ext (fun _ => 0)); [intro; cbn; ring|apply ispoly_const].
  - apply (ispoly_ext (fun x => a * g x + x * (peval p x * g x))); [intro; cbn; fold (peval p x); ring|]. apply ispoly_add; [now apply ispoly_scale|].
    destruct IH as (q & Q). exists (0 :: q). intro x. cbn. fold (peval q x). rewrite <- Q. ring.
Qed.
Lemma ispoly_pow f k : IsPoly f -> IsPoly (fun x => f x ^ k).
Proof. intro H. induction k as [|k IH]; cbn [pow]; [apply ispoly_const|]. now apply ispoly_mul. Qed.
Lemma ispoly_comp f g : IsPoly f -> IsPoly g -> IsPoly (fun x => f (g x)).
Proof.
  intros (p & P) Hg. apply (ispoly_ext (fun x => peval p (g x))); [intro; now rewrite P|]. clear P f. induction p as [|a p IH]; [apply (ispoly_const 0)|].
  apply (ispoly_ext (fun x => a + g x * peval p (g x))); [intro; reflexivity|]. apply (ispoly_add (fun _ => a)); [apply ispoly_const|]. now apply ispoly_mul.
Qed.
Lemma ispoly_growth f : IsPoly f -> exists C D, 0 <= C /\ forall x, 1 <= Rabs x -> Rabs (f x) <= C * Rabs x ^ D.
Proof.
  intros (p & P). assert (exists C D, 0 <= C /\ forall x, 1 <= Rabs x -> Rabs (peval p x) <= C * Rabs x ^ D) as (C & D & H0 & H).
  { clear P. induction p as [|a p (C & D & H0 & H)].
    - exists 0, O. split; [lra|]. intros x _. cbn. rewrite Rabs_R0. lra.
    - exists (Rabs a + C), (S D). pose proof (Rabs_pos a). split; [lra|]. intros x Hx. cbn [peval fold_right]. fold (peval p x). specialize (H x Hx).
      eapply Rle_trans; [apply Rabs_triang|]. rewrite Rabs_mult, Rmult_plus_distr_r. pose proof (pow_R1_Rle (Rabs x) (S D) Hx) as HP1. apply Rplus_le_compat.
      + rewrite <- (Rmult_1_r (Rabs a)) at 1. now apply Rmult_le_compat_l.
      + cbn [pow]. replace (C * (Rabs x * Rabs x ^ D)) with (Rabs x * (C * Rabs x ^ D)) by ring. apply Rmult_le_compat_l; [lra|exact H]. }
  exists C, D. split; [exact H0|]. intros x Hx. rewrite P. auto.
Qed.

(** ** The absolute value on [-1, 1] *)
Fixpoint usq (k : nat) (x : R) : R := match k with O => 0 | S m => usq m x + (x * x - usq m x * usq m x) / 2 end.
Lemma usq_poly k : IsPoly (usq k).
Proof.
  induction k as [|k IH]; cbn [usq]; [apply ispoly_const|]. apply ispoly_add; [exact IH|].
  apply (ispoly_ext (fun x => / 2 * (x * x + -1 * (usq k x * usq k x)))); [intro; field|]. apply ispoly_scale, ispoly_add; [apply ispoly_mul; apply ispoly_id|]. apply ispoly_scale. now apply ispoly_mul.
Qed.
Lemma usq_bound k x : Rabs x <= 1 -> 0 <= usq k x <= Rabs x /\ Rabs x - usq k x <= Rabs x * (1 - Rabs x / 2) ^ k.
Proof.
  intro Hx. assert (x * x = Rabs x * Rabs x) as E by (rewrite <- Rabs_mult, Rabs_pos_eq; nra). pose proof (Rabs_pos x) as H0. set (y := Rabs x) in *.
  induction k as [|k [[I1 I2] I3]]; [cbn [usq pow]; lra|]. cbn [usq]. rewrite E. set (u := usq k x) in *.
  assert (y - (u + (y * y - u * u) / 2) = (y - u) * (1 - (y + u) / 2)) as F by field.
  assert (0 <= (y - u) * (1 - (y + u) / 2)) as G by (apply Rmult_le_pos; lra).
  split; [split; [|lra]|].
  - assert (0 <= (y * y - u * u) / 2) by nra. lra.
  - rewrite F. cbn [pow]. apply Rle_trans with ((y - u) * (1 - y / 2)); [apply Rmult_le_compat_l; lra|].
    apply Rle_trans with (y * (1 - y / 2) ^ k * (1 - y / 2)); [apply Rmult_le_compat_r; lra|]. apply Req_le. ring.
Qed.
Lemma geometric_bound y k : 0 <= y <= 1 -> y * (1 - y / 2) ^ k * (INR k + 1) <= 2.
Proof.
  intro Hy. set (q := 1 - y / 2). assert (0 <= q <= 1) as Hq by (unfold q; lra).
  assert (forall k, (INR k + 1) * (y / 2) * q ^ k <= 1 - q ^ S k) as H.
  { induction k0 as [|j IH]; [cbn; unfold q; lra|]. rewrite S_INR. assert (q ^ S j <= q ^ j) as D by (cbn [pow]; pose proof (pow_le q j ltac:(lra)); nra).
    assert ((INR j + 1) * (y / 2) * q ^ S j <= 1 - q ^ S j) as A.
    { eapply Rle_trans; [|exact IH]. apply Rmult_le_compat_l; [|exact D]. pose proof (pos_INR j). apply Rmult_le_pos; lra. }
    change (q ^ S (S j)) with (q * q ^ S j). replace (y / 2) with (1 - q) in * by (unfold q; field). lra. }
  specialize (H k). pose proof (pow_le q (S k) ltac:(lra)). replace (y * q ^ k * (INR k + 1)) with (2 * ((INR k + 1) * (y / 2) * q ^ k)) by field. lra.
Qed.
Lemma abs_poly e : 0 < e -> exists r, IsPoly r /\ forall x, Rabs x <= 1 -> Rabs (Rabs x - r x) <= e.
Proof.
  intro He. destruct (archimed (2 / e)) as [A _]. set (k := Z.to_nat (up (2 / e))). exists (usq k). split; [apply usq_poly|]. intros x Hx. destruct (usq_bound k x Hx) as [[B1 B2] B3].
  rewrite Rabs_pos_eq by lra. assert (2 / e < INR k + 1) as Hk.
  { assert (0 < 2 / e) by (apply Rdiv_lt_0_compat; lra). assert (0 < up (2 / e))%Z as P by (apply lt_IZR; lra). unfold k. rewrite INR_IZR_INZ, Z2Nat.id by lia. lra. }
  pose proof (geometric_bound (Rabs x) k) as G. pose proof (Rabs_pos x). specialize (G ltac:(lra)). pose proof (pos_INR k).
  assert (2 < e * (INR k + 1)) as E by (apply (Rmult_lt_compat_l e) in Hk; [|lra]; replace (e * (2 / e)) with 2 in Hk by (field; lra); lra).
  apply (Rle_trans _ _ _ B3). apply (Rmult_le_reg_r (INR k + 1)); [lra|]. lra.
Qed.
Lemma abs_poly_at R0 c e : 0 < R0 -> 0 < e -> exists r, IsPoly r /\ forall x, Rabs (x - c) <= R0 -> Rabs (Rabs (x - c) - r x) <= e.
Proof.
  intros HR He. destruct (abs_poly (e / R0)) as (r & Hr & H); [now apply Rdiv_lt_0_compat|]. exists (fun x => R0 * r (/ R0 * (x + - c))). split.
  - apply ispoly_scale, ispoly_comp; [exact Hr|]. apply ispoly_scale, ispoly_add; [apply ispoly_id|apply ispoly_const].
  - intros x Hx. set (y := / R0 * (x + - c)). assert (x - c = R0 * y) as E by (unfold y; field; lra). rewrite E in *. rewrite Rabs_mult, (Rabs_pos_eq R0) in * by lra.
    replace (R0 * Rabs y - R0 * r y) with (R0 * (Rabs y - r y)) by ring. rewrite Rabs_mult, (Rabs_pos_eq R0) by lra.
    apply Rle_trans with (R0 * (e / R0)); [|apply Req_le; field; lra]. apply Rmult_le_compat_l; [lra|]. apply H. apply (Rmult_le_reg_l R0); lra.
Qed.
(** ** Ramps *)
(** One up to t, zero from t + d on, linear between. *)
Definition ramp (t d x : R) : R := (Rabs (x - (t + d)) - Rabs (x - t) + d) / (2 * d).
Lemma ramp_left t d x : 0 < d -> x <= t -> ramp t d x = 1.
Proof. intros. unfold ramp. rewrite !Rabs_left1 by lra. field. lra. Qed.
Lemma ramp_right t d x : 0 < d -> t + d <= x -> ramp t d x = 0.
Proof. intros. unfold ramp. rewrite !Rabs_pos_eq by lra. field. lra. Qed.
Lemma ramp_range t d x : 0 < d -> 0 <= ramp t d x <= 1.
Proof.
  intro Hd. destruct (Rle_dec x t); [rewrite ramp_left by lra; lra|]. destruct (Rle_dec (t + d) x); [rewrite ramp_right by lra; lra|].
  unfold ramp. rewrite Rabs_left1, Rabs_pos_eq by lra. split; [apply Rmult_le_pos; [lra|left; apply Rinv_0_lt_compat; lra]|]. apply (Rmult_le_reg_r (2 * d)); [lra|]. unfold Rdiv. rewrite Rmult_assoc, Rinv_l by lra. lra.
Qed.
Lemma ramp_continuous t d x : continuous (ramp t d) x.
Proof.
  unfold ramp, Rdiv. apply (continuous_mult (K := R_AbsRing)); [|apply continuous_const]. apply (continuous_plus (V := R_NormedModule)); [|apply continuous_const].
  apply (continuous_minus (V := R_NormedModule)); apply continuous_comp; try apply continuous_Rabs; apply (continuous_minus (V := R_NormedModule)); try apply continuous_id; apply continuous_const.
Qed.
Lemma ramp_poly t d e : 0 < d -> 0 < e -> exists r, IsPoly r /\ forall x, Rabs x <= 3 -> Rabs (ramp t d x - r x) <= e.
Proof.
  intros Hd He. set (R0 := 3 + Rabs t + d). pose proof (Rabs_pos t).
  destruct (abs_poly_at R0 (t + d) (d * e)) as (r1 & P1 & H1); [unfold R0; lra|now apply Rmult_lt_0_compat|].
  destruct (abs_poly_at R0 t (d * e)) as (r2 & P2 & H2); [unfold R0; lra|now apply Rmult_lt_0_compat|].
  exists (fun x => / (2 * d) * (r1 x + -1 * r2 x + d)). split; [apply ispoly_scale, ispoly_add; [apply ispoly_add; [exact P1|now apply ispoly_scale]|apply ispoly_const]|].
  intros x Hx. assert (Rabs (x - (t + d)) <= R0) as B1.
  { unfold R0. replace (x - (t + d)) with (x + - t + - d) by ring. eapply Rle_trans; [apply Rabs_triang|]. rewrite (Rabs_Ropp d), (Rabs_pos_eq d) by lra. pose proof (Rabs_triang x (- t)) as T. rewrite Rabs_Ropp in T. lra. }
  assert (Rabs (x - t) <= R0) as B2 by (unfold R0; pose proof (Rabs_triang x (- t)) as T; rewrite Rabs_Ropp in T; unfold Rminus; lra).
  specialize (H1 x B1). specialize (H2 x B2). unfold ramp.
  replace ((Rabs (x - (t + d)) - Rabs (x - t) + d) / (2 * d) - / (2 * d) * (r1 x + -1 * r2 x + d)) with (/ (2 * d) * ((Rabs (x - (t + d)) - r1 x) - (Rabs (x - t) - r2 x))) by (field; lra).
  rewrite Rabs_mult, Rabs_pos_eq by (left; apply Rinv_0_lt_compat; lra). apply Rle_trans with (/ (2 * d) * (2 * (d * e))); [|apply Req_le; field; lra].
  apply Rmult_le_compat_l; [left; apply Rinv_0_lt_compat; lra|]. unfold Rminus at 1. eapply Rle_trans; [apply Rabs_triang|]. rewrite Rabs_Ropp. lra.
Qed.
(** Polynomials around a ramp on the whole line, a constant apart on [-3, 3] up to a large even power of x/3. *)
Lemma ramp_bracket t d e : 0 < d -> 0 < e -> exists r C D, IsPoly r /\ 0 <= C /\ forall M, (D <= 2 * M)%nat -> forall x, Rabs (ramp t d x - r x) <= e + C * (x / 3) ^ (2 * M).
Proof.
  intros Hd He. destruct (ramp_poly t d e Hd He) as (r & P & H). destruct (ispoly_growth r P) as (C & D & C0 & G). exists r, (1 + C * 3 ^ D), D. pose proof (pow_lt 3 D ltac:(lra)) as H3.
  assert (0 <= C * 3 ^ D) as HC by (apply Rmult_le_pos; lra). split; [exact P|]. split; [lra|]. intros M HM x.
  assert (0 <= (x / 3) ^ (2 * M)) as E0 by (rewrite pow_mult; apply pow_le; nra).
  destruct (Rle_dec (Rabs x) 3) as [L|L].
  - specialize (H x L). assert (0 <= (1 + C * 3 ^ D) * (x / 3) ^ (2 * M)) by (apply Rmult_le_pos; lra). lra.
  - specialize (G x ltac:(lra)). pose proof (ramp_range t d x Hd) as RR.
    assert ((x / 3) ^ (2 * M) = (Rabs x / 3) ^ (2 * M)) as EV.
    { rewrite !pow_mult. f_equal. replace ((Rabs x / 3) ^ 2) with (Rabs x * Rabs x / 9) by (cbn [pow]; field). rewrite <- Rabs_mult, Rabs_pos_eq by nra. cbn [pow]. field. }
    rewrite EV in *. set (y := Rabs x / 3) in *. assert (1 <= y) as Hy by (unfold y; lra).
    pose proof (pow_R1_Rle y (2 * M) Hy) as Q1. pose proof (Rle_pow y D (2 * M) Hy HM) as Q2.
    assert (Rabs (r x) <= C * 3 ^ D * y ^ (2 * M)) as Q3.
    { eapply Rle_trans; [exact G|]. replace (Rabs x) with (3 * y) by (unfold y; field). rewrite Rpow_mult_distr, <- Rmult_assoc. apply Rmult_le_compat_l; [exact HC|exact Q2]. }
    eapply Rle_trans; [apply (Rabs_triang (ramp t d x) (- r x))|]. rewrite Rabs_Ropp, (Rabs_pos_eq (ramp t d x)) by lra. lra.
Qed.
